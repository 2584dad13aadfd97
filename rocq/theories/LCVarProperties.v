(** Properties of learning curves with selected features. *)
From Coq Require Import Reals Lra Lia List Arith Bool.
From Verif Require Import Base BaseFacts RBase CVModel LCModel LCVarModel.
Import ListNotations.
Local Open Scope nat_scope.

Section Curves.
Context {D C : Type}.
Variable fit : D -> C.
Variable err : C -> D -> D -> R.
Variable size : D -> nat.
Variable sctrain sctest glob : D -> D.
Variable cols : D -> list nat -> result D.
Variable select : nat * nat -> D -> result selected.

Notation reg_feat_var := (reg_feat_var fit err size cols).
Notation hierarchy_var := (hierarchy_var fit err size sctrain sctest glob cols select).
Notation hierarchy_const := (hierarchy_const fit err size sctrain sctest glob cols select).

(** ** One pair of subsets *)

(** The fit on the columns of one set of features, and its error for the test set. *)
Definition set_fits (train test : D) (idx : list nat) (n : nat) (e : R) (r : list (@outcome C)) : Prop :=
  exists tr te, cols train idx = Ok tr /\ cols test idx = Ok te /\
    n = length idx /\ e = err (fit tr) tr te /\ r = [Outcome (size te) e (fit tr)].

Inductive sets_fit (train test : D) : selected -> list nat -> list R -> list (list (@outcome C)) -> Prop :=
| no_set : sets_fit train test [] [] [] []
| next_set f idx t n ns e es r rs : set_fits train test idx n e r -> sets_fit train test t ns es rs ->
    sets_fit train test ((f, idx) :: t) (n :: ns) (e :: es) (r :: rs).

Lemma feat_loop_spec train test n : forall sel i p q, length (z_results p) + length sel <= n ->
  feat_loop fit err size cols train test n sel i p = Ok q ->
  exists ns es rs, sets_fit train test sel ns es rs /\ q = Progress (z_sizes p ++ ns) (z_errors p ++ es) (z_results p ++ rs).
Proof.
  induction sel as [|[f idx] t IH]; intros i p q Hn E; cbn [feat_loop] in E.
  - injection E as <-. exists [], [], []. split; [constructor|]. rewrite !app_nil_r. destruct p; reflexivity.
  - cbn [length] in Hn. destruct (Nat.ltb_spec n (length (z_results p) + 1)); [lia|].
    destruct (cols train idx) as [tr|] eqn:E1; [|discriminate]. destruct (cols test idx) as [te|] eqn:E2; [|discriminate].
    cbn [bind reg_data_var app] in E. apply IH in E; [|cbn [z_results]; rewrite app_length; cbn [length]; lia].
    destruct E as (ns & es & rs & HS & ->). cbn [z_sizes z_errors z_results].
    exists (length idx :: ns), (err (fit tr) tr te :: es), ([Outcome (size te) (err (fit tr) tr te) (fit tr)] :: rs). split.
    + constructor; [|exact HS]. exists tr, te. auto.
    + rewrite <- !app_assoc. reflexivity.
Qed.

(** For each selected set of features, in order, the number of its features, the error
    and the fit on its columns are added; earlier results are dropped. *)
Theorem features_varied train test sel p q : reg_feat_var train test sel p = Ok q ->
  exists ns es, z_sizes q = z_sizes p ++ ns /\ z_errors q = z_errors p ++ es /\ sets_fit train test sel ns es (z_results q).
Proof.
  intros E. unfold LCVarModel.reg_feat_var in E. apply feat_loop_spec in E; [|cbn; lia].
  destruct E as (ns & es & rs & HS & ->). exists ns, es. auto.
Qed.

Lemma sets_fit_length train test sel ns es rs : sets_fit train test sel ns es rs -> length ns = length sel /\ length es = length sel /\ length rs = length sel.
Proof. induction 1; cbn [length]; lia. Qed.

Lemma progress_made train test sel p q : sel <> [] -> reg_feat_var train test sel p = Ok q -> nothing q = false.
Proof.
  intros Hs E. apply features_varied in E. destruct E as (ns & es & E1 & E2 & HS). apply sets_fit_length in HS. destruct HS as (L1 & L2 & L3).
  unfold nothing. rewrite E1, E2. destruct sel as [|x sel]; [congruence|]. cbn [length] in *.
  destruct ns as [|n ns]; [discriminate|]. destruct es as [|e es]; [discriminate|]. destruct (z_results q); [discriminate|].
  destruct (z_sizes p), (z_errors p); reflexivity.
Qed.

(** ** hierarchy with a varying number of features *)

(** What is selected, or will be, is not empty. *)
Definition promising (found : result selected) (sel : option selected) : Prop :=
  match sel with None => forall s, found = Ok s -> s <> [] | Some s => s <> [] end.

Lemma get_data_var_spec found train test sel p q : promising found sel ->
  get_data_var fit err size sctrain sctest cols found train test sel p = Ok q -> nothing (fst q) = false /\ promising found (snd q).
Proof.
  intros HP E. unfold get_data_var in E. destruct sel as [s|].
  - destruct (reg_feat_var _ _ s p) as [q'|] eqn:E1; [|discriminate]. cbn [bind] in E. injection E as <-. cbn [fst snd].
    split; [exact (progress_made _ _ _ _ _ HP E1)|exact HP].
  - destruct found as [s|]; [|discriminate]. cbn [bind] in E. pose proof (HP s eq_refl) as Hs. destruct s as [|x s]; [congruence|].
    destruct (reg_feat_var _ _ (x :: s) p) as [q'|] eqn:E1; [|discriminate]. cbn [bind] in E. injection E as <-. cbn [fst snd].
    split; [exact (progress_made _ _ _ _ _ Hs E1)|exact Hs].
Qed.

Lemma splits_var_spec found d k train : forall splits sel p q, promising found sel ->
  splits_var fit err size sctrain sctest cols found d k train splits sel p = Ok q ->
  promising found (snd (fst q)) /\ snd q = snd k /\ (nothing p = false \/ (exists s, In s splits /\ s <> snd k) -> nothing (fst (fst q)) = false).
Proof.
  induction splits as [|s t IH]; intros sel p q HP E; cbn [splits_var] in E.
  - injection E as <-. cbn [fst snd]. split; [exact HP|]. split; [reflexivity|]. intros [H|(s & [] & _)]. exact H.
  - destruct (Nat.eqb_spec s (snd k)) as [->|Hne].
    + apply IH in E; [|exact HP]. destruct E as (H1 & H2 & H3). split; [exact H1|]. split; [exact H2|].
      intros [H|(s & [<-|Hin] & Hs)]; [auto|congruence|]. apply H3. right. exists s. auto.
    + destruct (dget d (fst k, s)) as [test|]; [|discriminate].
      destruct (get_data_var _ _ _ _ _ _ _ _ _ _ _) as [q'|] eqn:E1; [|discriminate]. cbn [bind] in E.
      apply get_data_var_spec in E1; [|exact HP]. destruct E1 as [N1 P1]. rewrite N1 in E. apply IH in E; [|exact P1].
      destruct E as (H1 & H2 & H3). auto.
Qed.

Lemma var_loop_fails found level d : forall ks sel p q, promising found sel -> (exists k, In k ks /\ snd k = 1) ->
  var_loop fit err size sctrain sctest cols found level d ks sel p = Ok q -> False.
Proof.
  induction ks as [|k t IH]; intros sel p q HP (k1 & Hin & Hk1) E; [destruct Hin|]. cbn [var_loop] in E. unfold predict_var in E.
  destruct (dget d k) as [train|]; [|discriminate].
  destruct (splits_var _ _ _ _ _ _ _ _ _ _ _ _ _) as [q'|] eqn:E1; [|discriminate]. apply splits_var_spec in E1; [|exact HP].
  destruct q' as [[p' sel'] i2]. cbn [fst snd] in E1. destruct E1 as (H1 & -> & H3). cbn [bind] in E.
  destruct (Nat.eqb_spec (snd k) 1) as [|Hk]; [discriminate|].
  rewrite H3 in E.
  - destruct Hin as [->|Hin]; [congruence|]. eapply IH; [exact H1|exists k1; auto|exact E].
  - right. exists 1. split; [|congruence]. apply in_seq. pose proof (Nat.pow_nonzero 2 (fst k)). lia.
Qed.

(** Once features are selected, hierarchy with featselect_featvar never returns: at the
    end of the first level np.vstack is called without arguments. *)
Theorem varying_features_returns_refuted globalscale limit level d g s :
  largest glob globalscale d = Ok g -> choose select limit g = Ok s -> s <> [] ->
  forall q, hierarchy_var globalscale limit level d <> Ok q.
Proof.
  intros EG ES Hs q E. unfold LCVarModel.hierarchy_var in E. rewrite EG in E. cbn [bind] in E. rewrite ES in E.
  assert (H11 : In (1, 1) (map fst d)).
  { unfold largest in EG. destruct globalscale; [|discriminate]. destruct (dget d (1, 1)) as [a|] eqn:Ea; [|discriminate].
    revert Ea. clear. induction d as [|[k v] d IH]; cbn [dget map fst]; [discriminate|].
    destruct (key_eqb (1, 1) k) eqn:Ek; intros E.
    - left. destruct k as [a1 a2]. unfold key_eqb in Ek. apply andb_prop in Ek. destruct Ek as [E1 E2]. apply Nat.eqb_eq in E1, E2. cbn [fst snd] in *. subst. reflexivity.
    - right. auto. }
  refine (var_loop_fails (Ok s) level d _ None _ q _ _ E).
  - intros s' [= <-]. exact Hs.
  - exists (1, 1). split; [|reflexivity]. rewrite <- in_rev. exact H11.
Qed.

(** With an empty selection nothing is fitted. *)
Theorem varying_features_none globalscale limit level d g k0 ks : rev (map fst d) = k0 :: ks -> snd k0 <> 1 ->
  (forall s, dget d k0 <> None /\ (1 <= s <= 2 ^ fst k0 -> dget d (fst k0, s) <> None)) ->
  largest glob globalscale d = Ok g -> choose select limit g = Ok [] ->
  hierarchy_var globalscale limit level d = Ok (Progress [] [] []).
Proof.
  intros EK Hk HD EG ES. unfold LCVarModel.hierarchy_var. rewrite EG. cbn [bind]. rewrite ES, EK. cbn [var_loop]. unfold predict_var.
  destruct (HD 1) as [H0 H1]. destruct (dget d k0) as [train|]; [|congruence].
  pose proof (Nat.pow_nonzero 2 (fst k0)). destruct (2 ^ fst k0) as [|m] eqn:Em; [lia|]. cbn [seq splits_var].
  destruct (Nat.eqb_spec 1 (snd k0)); [congruence|]. destruct (dget d (fst k0, 1)); [|exfalso; apply H1; [lia|reflexivity]].
  cbn [get_data_var bind z_results fst snd]. destruct (fst k0 <? level); cbn [z_results nothing z_sizes fst snd bind]; reflexivity.
Qed.

(** ** hierarchy with a fixed number of features *)

(** Without a limit, the default, or without global scaling every call fails. *)
Theorem default_limit_refuted feat_sub d g k0 ks : rev (map fst d) = k0 :: ks -> 1 <= fst k0 ->
  largest glob true d = Ok g -> forall q, hierarchy_const true None feat_sub d <> Ok q.
Proof.
  intros EK Hk EG q E. unfold LCVarModel.hierarchy_const in E. rewrite EG, EK in E. cbn [bind choose const_loop] in E. unfold predict_const in E.
  destruct (dget d k0) as [train|]; [|discriminate].
  assert (HS : exists s, In s (seq 1 (2 ^ fst k0)) /\ s <> snd k0).
  { assert (2 <= 2 ^ fst k0) by (pose proof (Nat.pow_le_mono_r 2 1 (fst k0)); cbn in *; lia).
    destruct (Nat.eq_dec (snd k0) 1) as [->|]; [exists 2|exists 1]; rewrite in_seq; lia. }
  match type of E with bind ?x _ = _ => assert (HX : forall q, x <> Ok q) end.
  { clear E. generalize true. generalize (@nil (@outcome C)). induction (seq 1 (2 ^ fst k0)) as [|s t IH]; intros res nt q' E; [destruct HS as (s & [] & _)|].
    cbn [splits_const] in E. destruct (Nat.eqb_spec s (snd k0)) as [->|].
    - destruct HS as (s & [<-|Hin] & Hs); [congruence|]. eapply IH; [exists s; auto|exact E].
    - destruct (dget d (fst k0, s)); discriminate. }
  destruct (splits_const _ _ _ _ _ _ _ _ _ _ _ _ _ _) as [q'|]; [|discriminate]. eapply HX. reflexivity.
Qed.

Theorem local_scaling_refuted limit feat_sub level d smallest use : d <> [] ->
  hierarchy_const false limit feat_sub d = Err NameError /\ hierarchy_var false limit level d = Err NameError /\
  feature_frequency sctrain glob select false smallest use limit d = Err NameError.
Proof.
  intros Hd. split; [reflexivity|]. split; [reflexivity|]. unfold feature_frequency. destruct (rev (map fst d)) as [|k ks] eqn:E; [|reflexivity].
  apply (f_equal (@length key)) in E. rewrite rev_length, map_length in E. destruct d; [congruence|discriminate].
Qed.

(** The learning curve with the columns [idx] *)
Definition curve_with (take : D -> list nat -> D) (idx : list nat) (d : odict D) : result (list (@outcome C)) :=
  hierarchy (fun tr => fit (take (sctrain tr) idx)) (fun c tr te => err c (take (sctrain tr) idx) (take (sctest te) idx)) (fun te => size (take (sctest te) idx)) d.

Section Take.
Variable take : D -> list nat -> D.
Variable idx : list nat.
Hypothesis Hcols : forall x, cols x idx = Ok (take x idx).
Variable s : selected.
Variable feat_sub : nat.
Hypothesis Hfind : find_set s feat_sub = Ok idx.

Notation fit' := (fun tr => fit (take (sctrain tr) idx)).
Notation err' := (fun c tr te => err c (take (sctrain tr) idx) (take (sctest te) idx)).
Notation size' := (fun te => size (take (sctest te) idx)).

Lemma const_data_eq nt res train test : const_data fit err size sctrain sctest cols s feat_sub nt res train test = reg_data_var fit' err' size' nt res train test.
Proof. unfold const_data. rewrite Hfind. cbn [bind]. rewrite !Hcols. cbn [bind]. reflexivity. Qed.

Lemma reg_data_var_nonempty nt res train test r : reg_data_var fit' err' size' nt res train test = Ok r -> r <> [].
Proof. unfold reg_data_var. destruct nt; [intros [= <-]; destruct res; discriminate|]. destruct res; [discriminate|]. intros [= <-]. discriminate. Qed.

Definition sel_ok (sel : option selected) : Prop := sel = None \/ sel = Some s.

Lemma s_nonempty : s <> [].
Proof. intros ->. discriminate. Qed.

Lemma splits_const_eq d k train : forall splits nt sel res, sel_ok sel ->
  match splits_const fit err size sctrain sctest cols (Ok s) feat_sub d k train splits nt sel res with
  | Ok q => splits_loop fit' err' size' d k train splits nt res = Ok (fst q) /\ sel_ok (snd q)
  | Err e => splits_loop fit' err' size' d k train splits nt res = Err e
  end.
Proof.
  induction splits as [|x t IH]; intros nt sel res HS; cbn [splits_const splits_loop]; [auto|].
  destruct (x =? snd k); [apply IH; exact HS|]. destruct (dget d (fst k, x)) as [test|]; [|reflexivity].
  assert (EQ : (match sel with
      | None => bind (Ok s) (fun s0 => match s0 with [] => Ok (res, Some []) | _ => bind (const_data fit err size sctrain sctest cols s0 feat_sub nt res train test) (fun r => Ok (r, Some s0)) end)
      | Some s0 => bind (const_data fit err size sctrain sctest cols s0 feat_sub nt res train test) (fun r => Ok (r, Some s0))
      end) = bind (reg_data_var fit' err' size' nt res train test) (fun r => Ok (r, Some s))).
  { destruct HS as [-> | ->]; [|rewrite const_data_eq; reflexivity]. cbn [bind]. pose proof s_nonempty. rewrite <- const_data_eq. destruct s; [congruence|reflexivity]. }
  rewrite EQ. destruct (reg_data_var fit' err' size' nt res train test) as [r|e] eqn:ER; cbn [bind fst snd]; [|reflexivity].
  pose proof (reg_data_var_nonempty _ _ _ _ _ ER) as Hr. destruct r as [|r0 r]; [congruence|]. apply IH. right. reflexivity.
Qed.

Lemma reg_data_var_grows nt res train test r : reg_data_var fit' err' size' nt res train test = Ok r -> res <> [] -> r <> [].
Proof. intros E _. exact (reg_data_var_nonempty _ _ _ _ _ E). Qed.

Lemma splits_loop_nonempty d k train : forall splits nt res r, splits_loop fit' err' size' d k train splits nt res = Ok r ->
  res <> [] \/ (exists x, In x splits /\ x <> snd k) -> r <> [].
Proof.
  induction splits as [|x t IH]; intros nt res r E H; cbn [splits_loop] in E.
  - injection E as <-. destruct H as [H|(x & [] & _)]. exact H.
  - destruct (Nat.eqb_spec x (snd k)) as [->|].
    + apply (IH _ _ _ E). destruct H as [H|(y & [<-|Hin] & Hy)]; [auto|congruence|]. right. exists y. auto.
    + destruct (dget d (fst k, x)) as [test|]; [|discriminate]. destruct (reg_data_var _ _ _ _ _ _ _) as [r'|] eqn:E1; [|discriminate]. cbn [bind] in E.
      apply (IH _ _ _ E). left. exact (reg_data_var_nonempty _ _ _ _ _ E1).
Qed.

Lemma const_loop_eq d : forall ks sel res, sel_ok sel -> Forall (fun k => 1 <= fst k) ks ->
  const_loop fit err size sctrain sctest cols (Ok s) feat_sub d ks sel res = hierarchy_loop fit' err' size' d ks res.
Proof.
  induction ks as [|k t IH]; intros sel res HS HK; [reflexivity|]. inversion HK as [|? ? Hk Ht]; subst. cbn [const_loop hierarchy_loop].
  unfold predict_const, predict_subsets. destruct (dget d k) as [train|]; [|reflexivity].
  pose proof (splits_const_eq d k train (seq 1 (2 ^ fst k)) true sel res HS) as H.
  destruct (splits_const _ _ _ _ _ _ _ _ _ _ _ _ _ _ _) as [[r sel']|e]; [|rewrite H; reflexivity].
  cbn [fst snd bind] in *. destruct H as [H1 H2]. rewrite H1. cbn [bind].
  assert (Hr : r <> []).
  { apply (splits_loop_nonempty _ _ _ _ _ _ _ H1). right.
    assert (2 <= 2 ^ fst k) by (pose proof (Nat.pow_le_mono_r 2 1 (fst k)); cbn in *; lia).
    destruct (Nat.eq_dec (snd k) 1) as [->|]; [exists 2|exists 1]; rewrite in_seq; lia. }
  destruct r as [|r0 r]; [congruence|]. apply IH; assumption.
Qed.
End Take.

(** With a set of feat_sub features selected in the subset 1_1, the learning curve is that
    of these columns. *)
Theorem fixed_features_curve take idx s limit feat_sub d g : (forall x, cols x idx = Ok (take x idx)) -> Forall (fun k => 1 <= fst k) (map fst d) ->
  largest glob true d = Ok g -> select limit g = Ok s -> find_set s feat_sub = Ok idx ->
  hierarchy_const true (Some limit) feat_sub d = curve_with take idx d.
Proof.
  intros HC HK EG ES EF. unfold LCVarModel.hierarchy_const. rewrite EG. cbn [bind choose]. rewrite ES. unfold curve_with, hierarchy.
  apply (const_loop_eq take idx HC s feat_sub EF); [left; reflexivity|]. apply Forall_rev. exact HK.
Qed.

(** When sets were selected but none with feat_sub features, the call fails. *)
Theorem fixed_features_missing_refuted s limit feat_sub d g k0 ks : rev (map fst d) = k0 :: ks -> 1 <= fst k0 ->
  largest glob true d = Ok g -> select limit g = Ok s -> s <> [] -> ~ In feat_sub (map fst s) ->
  hierarchy_const true (Some limit) feat_sub d = Err KeyError.
Proof.
  intros EK Hk EG ES Hs Hn. unfold LCVarModel.hierarchy_const. rewrite EG, EK. cbn [bind choose]. rewrite ES. cbn [const_loop]. unfold predict_const.
  destruct (dget d k0) as [train|]; [|reflexivity].
  assert (EF : find_set s feat_sub = Err KeyError).
  { revert Hn. clear. induction s as [|[f i] t IH]; cbn; intros H; [reflexivity|]. destruct (Nat.eqb_spec f feat_sub); [tauto|]. apply IH. tauto. }
  assert (HS : exists x, In x (seq 1 (2 ^ fst k0)) /\ x <> snd k0).
  { assert (2 <= 2 ^ fst k0) by (pose proof (Nat.pow_le_mono_r 2 1 (fst k0)); cbn in *; lia).
    destruct (Nat.eq_dec (snd k0) 1) as [->|]; [exists 2|exists 1]; rewrite in_seq; lia. }
  match goal with |- bind ?x _ = _ => assert (HX : x = Err KeyError); [|rewrite HX; reflexivity] end.
  induction (seq 1 (2 ^ fst k0)) as [|x t IH]; [destruct HS as (x & [] & _)|].
  cbn [splits_const]. destruct (Nat.eqb_spec x (snd k0)) as [->|].
  - destruct HS as (x & [<-|Hin] & Hx); [congruence|]. apply IH. exists x. auto.
  - destruct (dget d (fst k0, x)) as [test|]; [|reflexivity]. cbn [bind]. destruct s as [|s0 s']; [congruence|]. unfold const_data. rewrite EF. reflexivity.
Qed.

(** When no set was selected at all, nothing is fitted and the result is empty. *)
Theorem fixed_features_none limit feat_sub d g k0 ks : rev (map fst d) = k0 :: ks -> 1 <= fst k0 -> dget d k0 <> None ->
  (forall x, 1 <= x <= 2 ^ fst k0 -> dget d (fst k0, x) <> None) ->
  largest glob true d = Ok g -> select limit g = Ok [] -> hierarchy_const true (Some limit) feat_sub d = Ok [].
Proof.
  intros EK Hk H0 HD EG ES. unfold LCVarModel.hierarchy_const. rewrite EG, EK. cbn [bind choose]. rewrite ES. cbn [const_loop]. unfold predict_const.
  destruct (dget d k0) as [train|]; [|congruence].
  assert (HS : exists x, In x (seq 1 (2 ^ fst k0)) /\ x <> snd k0).
  { assert (2 <= 2 ^ fst k0) by (pose proof (Nat.pow_le_mono_r 2 1 (fst k0)); cbn in *; lia).
    destruct (Nat.eq_dec (snd k0) 1) as [->|]; [exists 2|exists 1]; rewrite in_seq; lia. }
  assert (HI : forall x, In x (seq 1 (2 ^ fst k0)) -> dget d (fst k0, x) <> None) by (intros x Hx; apply in_seq in Hx; apply HD; lia).
  match goal with |- bind ?x _ = _ => assert (HX : exists o, x = Ok ([], o)) end.
  { induction (seq 1 (2 ^ fst k0)) as [|x t IH]; [destruct HS as (x & [] & _)|].
    cbn [splits_const]. destruct (Nat.eqb_spec x (snd k0)) as [->|].
    - destruct HS as (x & [<-|Hin] & Hx); [congruence|]. apply IH; [exists x; auto|]. intros y Hy. apply HI. right. exact Hy.
    - destruct (dget d (fst k0, x)) as [test|] eqn:Et; [|exfalso; apply (HI x); [left; reflexivity|exact Et]]. cbn [bind fst]. eexists. reflexivity. }
  destruct HX as [o ->]. reflexivity.
Qed.

(** The features of the model trained on the subset k0 come from the subset 1_1, also when
    1_1 is no part of k0: another 1_1 can give another model for the same training data. *)
Theorem selection_from_training_refuted take limit feat_sub d d' g g' s s' idx idx' k0 ks ks' train o out o' out' :
  (forall x i, cols x i = Ok (take x i)) -> Forall (fun k => 1 <= fst k) (map fst d) -> Forall (fun k => 1 <= fst k) (map fst d') ->
  rev (map fst d) = k0 :: ks -> rev (map fst d') = k0 :: ks' -> dget d k0 = Some train -> dget d' k0 = Some train ->
  largest glob true d = Ok g -> select limit g = Ok s -> find_set s feat_sub = Ok idx ->
  largest glob true d' = Ok g' -> select limit g' = Ok s' -> find_set s' feat_sub = Ok idx' ->
  fit (take (sctrain train) idx) <> fit (take (sctrain train) idx') ->
  hierarchy_const true (Some limit) feat_sub d = Ok (o :: out) -> hierarchy_const true (Some limit) feat_sub d' = Ok (o' :: out') ->
  o_coef o <> o_coef o'.
Proof.
  intros HC HK HK' EK EK' ET ET' EG ES EF EG' ES' EF' HN E E'.
  rewrite (fixed_features_curve take idx s limit feat_sub d g) in E; auto.
  rewrite (fixed_features_curve take idx' s' limit feat_sub d' g') in E'; auto.
  assert (FIRST : forall i dd kk oo oout, rev (map fst dd) = k0 :: kk -> Forall (fun k => 1 <= fst k) (map fst dd) -> dget dd k0 = Some train -> curve_with take i dd = Ok (oo :: oout) -> o_coef oo = fit (take (sctrain train) i)).
  { clear. intros i dd kk oo oout EK HK ET E. unfold curve_with, hierarchy in E. rewrite EK in E. cbn [hierarchy_loop] in E. unfold predict_subsets in E. rewrite ET in E.
    assert (Hk : 1 <= fst k0).
    { apply (proj1 (Forall_forall _ _) HK). rewrite in_rev, EK. left. reflexivity. }
    assert (HS : exists x, In x (seq 1 (2 ^ fst k0)) /\ x <> snd k0).
    { assert (2 <= 2 ^ fst k0) by (pose proof (Nat.pow_le_mono_r 2 1 (fst k0)); cbn in *; lia).
      destruct (Nat.eq_dec (snd k0) 1) as [->|]; [exists 2|exists 1]; rewrite in_seq; lia. }
    set (f' := fun tr => fit (take (sctrain tr) i)) in *. set (e' := fun c tr te => err c _ _) in E. set (z' := fun te => size _) in E.
    assert (KEEP1 : forall k tr splits nt r0 res q, splits_loop f' e' z' dd k tr splits nt (r0 :: res) = Ok q -> exists q', q = r0 :: q').
    { intros k tr. induction splits as [|x t IH]; intros nt r0 res q Eq; cbn [splits_loop] in Eq; [injection Eq as <-; eauto|].
      destruct (x =? snd k); [eauto|]. destruct (dget dd (fst k, x)); [|discriminate]. destruct nt; cbn [reg_data_var bind app] in Eq; eauto. }
    assert (KEEP2 : forall ks r0 res q, hierarchy_loop f' e' z' dd ks (r0 :: res) = Ok q -> exists q', q = r0 :: q').
    { induction ks as [|k t IH]; intros r0 res q Eq; cbn [hierarchy_loop] in Eq; [injection Eq as <-; eauto|]. unfold predict_subsets in Eq.
      destruct (dget dd k); [|discriminate]. match type of Eq with bind ?x _ = _ => destruct x as [r|] eqn:Er; [|discriminate] end. destruct (KEEP1 _ _ _ _ _ _ _ Er) as [q' ->]. cbn [bind] in Eq. eauto. }
    assert (ST : forall splits r, (exists x, In x splits /\ x <> snd k0) -> splits_loop f' e' z' dd k0 train splits true [] = Ok r -> exists r0 r', r = r0 :: r' /\ o_coef r0 = f' train).
    { induction splits as [|x t IH]; intros r HX Er; [destruct HX as (x & [] & _)|]. cbn [splits_loop] in Er. destruct (Nat.eqb_spec x (snd k0)) as [->|].
      - destruct HX as (x & [<-|Hin] & Hx); [congruence|]. apply IH in Er; [exact Er|eauto].
      - destruct (dget dd (fst k0, x)) as [te|]; [|discriminate]. cbn [reg_data_var bind app] in Er. apply KEEP1 in Er. destruct Er as [q' ->].
        eexists. eexists. split; [reflexivity|reflexivity]. }
    destruct (splits_loop _ _ _ _ _ _ _ _ _) as [r|] eqn:Er; [|discriminate]. destruct (ST _ _ HS Er) as (r0 & r' & -> & HR). cbn [bind] in E.
    destruct (KEEP2 _ _ _ _ E) as [q' Eq']. injection Eq' as -> _. exact HR. }
  rewrite (FIRST _ _ _ _ _ EK HK ET E), (FIRST _ _ _ _ _ EK' HK' ET' E'). exact HN.
Qed.

(** ** feature_frequency *)

(** The features for the frequency plot are those selected in the subset 1_1, or with
    smallest=True in the last subset; without a method None is returned. *)
Theorem feature_frequency_source smallest use limit d k ks train first g :
  rev (map fst d) = k :: ks -> dget d k = Some train -> dget d (fst k, 1) = Some first -> largest glob true d = Ok g ->
  feature_frequency sctrain glob select true smallest use (Some limit) d =
    if use then match select limit (if smallest then sctrain train else g) with Ok s => Ok (Some s) | Err e => Err e end else Ok None.
Proof.
  intros EK ET EF EG. unfold feature_frequency. rewrite EK, EG. cbn [bind]. rewrite ET, EF. destruct use; [|reflexivity]. cbn [choose].
  destruct (select _ _); reflexivity.
Qed.
End Curves.

(** ** alpha_refinment *)
Section Refinement.
Variable lasso : R -> list nat.
Open Scope R_scope.

Lemma inspect_spec upper lower n ft a : In (ft, a) (inspect lasso upper lower n) -> lower <= upper ->
  ft = length (lasso a) /\ (lower <= a <= upper \/ n = 1%nat /\ a = upper).
Proof.
  intros H HU. unfold inspect in H. apply in_map_iff in H. destruct H as (x & [= <- <-] & Hx). split; [reflexivity|].
  unfold alphas in Hx. apply in_map_iff in Hx. destruct Hx as (i & <- & Hi). apply in_seq in Hi.
  destruct (Nat.eq_dec n 1) as [->|Hn].
  - right. split; [reflexivity|]. assert (i = 0%nat) as -> by lia. cbn [INR]. lra.
  - left. assert (HN : 0 < INR (n - 1)) by (apply lt_0_INR; lia).
    assert (HI : 0 <= INR i / INR (n - 1) <= 1).
    { split; [apply Rmult_le_pos; [apply pos_INR|left; apply Rinv_0_lt_compat; exact HN]|].
      apply (Rmult_le_reg_r (INR (n - 1))); [exact HN|]. unfold Rdiv. rewrite Rmult_assoc, Rinv_l by lra. rewrite Rmult_1_r, Rmult_1_l. apply le_INR. lia. }
    replace (upper + INR i * ((lower - upper) / INR (n - 1))) with (upper - INR i / INR (n - 1) * (upper - lower)) by (field; lra).
    set (q := INR i / INR (n - 1)) in *. nra.
Qed.

Lemma alpha_finder_in v feat a : alpha_finder v feat = Some a -> In (feat, a) v.
Proof.
  induction v as [|[ft x] t IH]; cbn; [discriminate|]. destruct (Nat.eqb_spec ft feat) as [->|]; [intros [= ->]; auto|auto].
Qed.

Lemma alpha_finder_first v feat a : alpha_finder v feat = Some a -> exists v1 v2, v = v1 ++ (feat, a) :: v2 /\ Forall (fun q => fst q <> feat) v1.
Proof.
  induction v as [|[ft x] t IH]; cbn; [discriminate|]. destruct (Nat.eqb_spec ft feat) as [->|Hn]; [intros [= ->]; exists [], t; auto|].
  intros E. destruct (IH E) as (v1 & v2 & -> & HF). exists ((ft, x) :: v1), v2. split; [reflexivity|]. constructor; [exact Hn|exact HF].
Qed.

(** The refined penalty is at least as large, at most upper^refsteps times as large, and
    the lasso with it has the same number of features. *)
Theorem refinement_sound alpha feat splits refsteps upper : 0 <= alpha -> 1 <= upper -> length (lasso alpha) = feat ->
  let r := alpha_refinment lasso alpha feat splits refsteps upper in
  alpha <= r <= upper ^ refsteps * alpha /\ length (lasso r) = feat.
Proof.
  cbv zeta. intros HA HU HL. revert alpha HA HL. induction refsteps as [|n IH]; intros alpha HA HL; cbn [alpha_refinment pow]; [split; [lra|exact HL]|].
  destruct (alpha_finder _ feat) as [a|] eqn:E.
  - apply alpha_finder_in in E. apply inspect_spec in E; [|nra]. destruct E as [EL HR].
    assert (HB : alpha <= a <= upper * alpha) by (destruct HR as [|[_ ->]]; [assumption|nra]).
    destruct (IH a ltac:(lra) (eq_sym EL)) as [[I1 I2] I3]. split; [|exact I3]. split; [lra|].
    eapply Rle_trans; [exact I2|]. rewrite (Rmult_comm upper), Rmult_assoc. apply Rmult_le_compat_l; [apply pow_le; lra|lra].
  - destruct (IH alpha HA HL) as [[I1 I2] I3]. split; [|exact I3]. split; [lra|].
    eapply Rle_trans; [exact I2|]. rewrite (Rmult_comm upper), Rmult_assoc. apply Rmult_le_compat_l; [apply pow_le; lra|nra].
Qed.

(** One step finds the largest penalty of the grid with that number of features. *)
Theorem refinement_largest alpha feat splits upper : 0 <= alpha -> 1 <= upper -> length (lasso alpha) = feat -> (2 <= splits)%nat ->
  forall i, (i < splits)%nat ->
  let a := upper * alpha + INR i * ((alpha - upper * alpha) / INR (splits - 1)) in
  length (lasso a) = feat -> a <= alpha_refinment lasso alpha feat splits 1 upper.
Proof.
  intros HA HU HL Hs i Hi a Ha. cbn [alpha_refinment].
  assert (HN : 0 < INR (splits - 1)) by (apply lt_0_INR; lia).
  pose (A := fun j => upper * alpha + INR j * ((alpha - upper * alpha) / INR (splits - 1))).
  assert (DEC : forall j k, (j <= k)%nat -> A k <= A j).
  { intros j k Hjk. unfold A. assert (INR j <= INR k) by (apply le_INR; lia).
    assert (HQ : (alpha - upper * alpha) / INR (splits - 1) <= 0).
    { apply (Rmult_le_reg_r (INR (splits - 1))); [exact HN|]. unfold Rdiv. rewrite Rmult_assoc, Rinv_l by lra. nra. }
    nra. }
  assert (G : forall n s, (forall j, (s <= j < s + n)%nat -> (j < splits)%nat) -> (s <= i < s + n)%nat ->
     exists b, alpha_finder (map (fun x => (length (lasso x), x)) (map A (seq s n))) feat = Some b /\ A i <= b).
  { induction n as [|n IH]; intros s Hj Hs'; [lia|]. cbn [seq map alpha_finder]. destruct (Nat.eqb_spec (length (lasso (A s))) feat) as [|Hne].
    - exists (A s). split; [reflexivity|]. apply DEC. lia.
    - destruct (Nat.eq_dec s i) as [->|]; [contradiction|]. apply (IH (S s)); [intros j Hj'; apply Hj; lia|lia]. }
  destruct (G splits 0%nat) as (b & Eb & Hb); [intros; lia|lia|]. unfold inspect, alphas. fold A. rewrite Eb. exact Hb.
Qed.
End Refinement.

(** ** Examples *)
(** Subsets are numbers of rows times ten plus a tag; the selection depends on the tag. *)
Definition two_sets : odict nat := [((1, 1), 10); ((1, 2), 10); ((2, 1), 5); ((2, 2), 5); ((2, 3), 5); ((2, 4), 5)]%nat.
Definition other_sets : odict nat := [((1, 1), 11); ((1, 2), 10); ((2, 1), 5); ((2, 2), 5); ((2, 3), 5); ((2, 4), 5)]%nat.
Definition sel_case (_ : nat * nat) (d : nat) : result selected := Ok [(1, [d - 10]); (2, [d - 10; 2])]%nat.
Definition cols_case (d : nat) (i : list nat) : result nat := Ok (d + 100 * list_sum i)%nat.

Example const_case :
  exists o out o' out', hierarchy_const (fun x => x) (fun _ _ _ => 0%R) (fun x => x) (fun x => x) (fun x => x) (fun x => x) cols_case sel_case true (Some (0, 3)) 1 two_sets = Ok (o :: out) /\
  hierarchy_const (fun x => x) (fun _ _ _ => 0%R) (fun x => x) (fun x => x) (fun x => x) (fun x => x) cols_case sel_case true (Some (0, 3)) 1 other_sets = Ok (o' :: out') /\
  o_coef o = 5 /\ o_coef o' = 105 /\ length out = 13.
Proof. do 4 eexists. repeat split; vm_compute; reflexivity. Qed.

Example var_case :
  hierarchy_var (fun x => x) (fun _ _ _ => 0%R) (fun x => x) (fun x => x) (fun x => x) (fun x => x) cols_case sel_case true (Some (0, 3)) 2 two_sets = Err TypeError.
Proof. vm_compute. reflexivity. Qed.

Example missing_case :
  hierarchy_const (fun x => x) (fun _ _ _ => 0%R) (fun x => x) (fun x => x) (fun x => x) (fun x => x) cols_case sel_case true (Some (0, 3)) 15 two_sets = Err KeyError.
Proof. vm_compute. reflexivity. Qed.

Example varied_case :
  exists q, reg_feat_var (fun x => x) (fun _ _ _ => 0%R) (fun x => x) cols_case 5 5 [(1, [1]); (2, [0; 2])] (Progress [7] [1%R] []) = Ok q /\
  z_sizes q = [7; 1; 2] /\ length (z_results q) = 2.
Proof. eexists. repeat split; vm_compute; reflexivity. Qed.

Print Assumptions features_varied.
Print Assumptions varying_features_returns_refuted.
Print Assumptions varying_features_none.
Print Assumptions default_limit_refuted.
Print Assumptions local_scaling_refuted.
Print Assumptions fixed_features_curve.
Print Assumptions fixed_features_missing_refuted.
Print Assumptions fixed_features_none.
Print Assumptions selection_from_training_refuted.
Print Assumptions feature_frequency_source.
Print Assumptions refinement_sound.
Print Assumptions refinement_largest.
