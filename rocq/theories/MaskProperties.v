(** Masks of constrained coordinates and the surrogate calculator. *)
From Coq Require Import Reals Lra Lia List Arith Bool Sorting.Sorted.
From Verif Require Import Base BaseFacts RBase MaskModel.
From Coquelicot Require Import Coquelicot.
From Coq Require Import List.
Import ListNotations.

(** ** Specification *)
(** Coordinate c of atom i is fixed by a constraint. *)
Definition fixes (k : constr) (i c : nat) : Prop :=
  match k with
  | Cartesian a mask => a = i /\ nth c mask false = true
  | FixAtoms index => In i index
  | OtherConstraint => False
  end.
(** A constraint is about an atom. *)
Definition concerns (k : constr) (i : nat) : Prop :=
  match k with Cartesian a _ => a = i | FixAtoms index => In i index | OtherConstraint => False end.
(** The constraints are about atoms of the structure. *)
Definition valid (n : nat) (k : constr) : Prop :=
  match k with
  | Cartesian a mask => (a < n)%nat /\ length mask = 3%nat
  | FixAtoms index => forall i, In i index -> (i < n)%nat
  | OtherConstraint => True
  end.
(** An atom fixed in some directions only has no other constraint. *)
Definition compatible (cs : list constr) : Prop :=
  forall j k a mask c, nth_error cs j = Some (Cartesian a mask) -> nth_error cs k = Some c -> concerns c a -> j = k.

(** ** create_mask *)
Section Create.
Variables (n : nat) (cs : list constr).
Hypothesis HV : forall k, In k cs -> valid n k.
Hypothesis HC : compatible cs.

Definition is_fixed (i c : nat) : Prop := exists k, In k cs /\ fixes k i c.

(** A row says for each direction that it is not fixed. *)
Definition right_row (r : list bool) (i : nat) : Prop :=
  length r = 3%nat /\ forall c, (c < 3)%nat -> nth c r false = true <-> ~ is_fixed i c.

Definition mask_inv (done : nat -> Prop) (m : list (list bool)) : Prop :=
  length m = n /\ forall i, (i < n)%nat ->
    (nth i m [] = [true; true; true] \/ right_row (nth i m []) i) /\ (done i -> right_row (nth i m []) i).

Lemma cartesian_row a mask i : In (Cartesian a mask) cs -> a = i -> right_row (map negb mask) i.
Proof.
  intros Hin <-. destruct (HV _ Hin) as [Ha HL]. split; [rewrite map_length; auto|].
  intros c Hc. rewrite (nth_map_lt _ _ _ false) by lia.
  apply In_nth_error in Hin as [j Hj]. rewrite negb_true_iff. split.
  - intros E (k & Hk & F). apply In_nth_error in Hk as [l Hl].
    assert (j = l). { eapply HC; eauto. destruct k; cbn in *; [apply F|auto|contradiction]. }
    subst l. rewrite Hj in Hl. injection Hl as <-. destruct F as [_ F]. congruence.
  - intros F. apply not_true_is_false. intros E. apply F. exists (Cartesian a mask). split; [eapply nth_error_In; eauto|split; auto].
Qed.

Lemma index_row index i : In (FixAtoms index) cs -> In i index -> right_row [false; false; false] i.
Proof.
  intros Hin Hi. split; [reflexivity|]. intros c Hc. split.
  - destruct c as [|[|[|c]]]; cbn; intros; try discriminate; lia.
  - intros F. exfalso. apply F. exists (FixAtoms index). split; auto.
Qed.

Lemma inv_weaken (d d' : nat -> Prop) m : (forall i, d' i -> d i) -> mask_inv d m -> mask_inv d' m.
Proof. intros H [A B]. split; auto. intros i Hi. destruct (B i Hi) as [C D]. split; auto. Qed.

Lemma set_row_inv d m a r : mask_inv d m -> (a < n)%nat -> right_row r a -> mask_inv (fun i => d i \/ i = a) (set_nth a r m).
Proof.
  intros [A B] Ha HR. split; [rewrite set_nth_length; auto|]. intros i Hi. destruct (B i Hi) as [C D].
  destruct (Nat.eq_dec i a) as [->|Hne].
  - rewrite nth_set_nth_eq by lia. auto.
  - rewrite nth_set_nth_neq by auto. split; [auto|]. intros [E|E]; [auto|contradiction].
Qed.

Definition concerns_cart (k : option constr) (i : nat) : Prop := match k with Some (Cartesian a _) => a = i | _ => False end.
Definition concerns_index (k : option constr) (i : nat) : Prop := match k with Some (FixAtoms l) => In i l | _ => False end.

Lemma set_cartesian_inv d m k : mask_inv d m -> (forall c, k = Some c -> In c cs) -> mask_inv (fun i => d i \/ concerns_cart k i) (set_cartesian k m).
Proof.
  intros HI HK. destruct k as [[a mask|index|]|]; cbn -[Nat.ltb Nat.eqb mask_inv]; try (eapply inv_weaken; [|exact HI]; tauto).
  pose proof (HK _ eq_refl) as Hin. destruct (HV _ Hin) as [Ha HL]. pose proof HI as [A _]. rewrite A, HL.
  replace (a <? n)%nat with true by (symmetry; apply Nat.ltb_lt; auto). cbn -[mask_inv set_nth].
  eapply inv_weaken; [|apply set_row_inv; [exact HI|exact Ha|eapply cartesian_row; eauto]]. intros i [|]; auto.
Qed.

Lemma set_index_inv d m k : mask_inv d m -> (forall c, k = Some c -> In c cs) -> mask_inv (fun i => d i \/ concerns_index k i) (set_index k m).
Proof.
  intros HI HK. destruct k as [[a mask|index|]|]; cbn -[Nat.ltb Nat.eqb mask_inv]; try (eapply inv_weaken; [|exact HI]; tauto).
  pose proof (HK _ eq_refl) as Hin. pose proof (HV _ Hin) as Hv. cbn in Hv. pose proof HI as [A _]. rewrite A.
  replace (forallb (fun i => (i <? n)%nat) index) with true.
  2:{ symmetry. apply forallb_forall. intros i Hi. apply Nat.ltb_lt. auto. }
  assert (HR : forall i, In i index -> right_row [false; false; false] i) by (intros; eapply index_row; eauto).
  clear HK Hin A. revert d m HI. induction index as [|a t IH]; intros d m HI.
  - eapply inv_weaken; [|exact HI]. cbn. tauto.
  - cbn [fold_left].
    assert (H1 : mask_inv (fun i => d i \/ i = a) (set_nth a [false; false; false] m)) by (apply set_row_inv; auto; [apply Hv; cbn; auto|apply HR; cbn; auto]).
    apply IH in H1; [|intros; apply Hv; cbn; auto|intros; apply HR; cbn; auto].
    eapply inv_weaken; [|exact H1]. cbn. intros i [|[|]]; auto.
Qed.

Lemma step_inv d m i : mask_inv d m -> mask_inv (fun a => d a \/ concerns_cart (nth_error cs i) a \/ concerns_index (nth_error cs i) a) (mask_step cs m i).
Proof.
  intros HI. unfold mask_step.
  assert (HK : forall j c, nth_error cs j = Some c -> In c cs) by (intros; eapply nth_error_In; eauto).
  eapply inv_weaken; [|apply set_cartesian_inv; [apply set_cartesian_inv; [apply set_index_inv; [apply set_cartesian_inv; [exact HI|apply HK]|apply HK]|apply HK]|apply HK]].
  cbv beta. tauto.
Qed.

Lemma steps_inv : forall idx d m, mask_inv d m ->
  mask_inv (fun a => d a \/ exists i, In i idx /\ (concerns_cart (nth_error cs i) a \/ concerns_index (nth_error cs i) a)) (fold_left (mask_step cs) idx m).
Proof.
  induction idx as [|i t IH]; intros d m HI; cbn [fold_left].
  - eapply inv_weaken; [|exact HI]. intros a [|(i & [] & _)]; auto.
  - eapply inv_weaken; [|apply IH, step_inv, HI]. cbv beta. intros a [|(j & [->|Hj] & H)]; eauto.
Qed.

Lemma mask_rows : let m := fold_left (mask_step cs) (seq 0 (length cs)) (repeat [true; true; true] n) in
  length m = n /\ forall i, (i < n)%nat -> right_row (nth i m []) i.
Proof.
  intros m. assert (H0 : mask_inv (fun _ => False) (repeat [true; true; true] n)).
  { split; [apply repeat_length|]. intros i Hi. split; [left; apply nth_repeat_lt; auto|contradiction]. }
  destruct (steps_inv (seq 0 (length cs)) _ _ H0) as [A B]. fold m in A, B. split; [auto|]. intros i Hi.
  destruct (B i Hi) as [[E|E] D]; [|auto].
  (* a row of True only: no constraint concerns the atom, or it says so *)
  destruct (List.existsb (fun k => match k with Cartesian a _ => (a =? i)%nat | FixAtoms l => if in_dec Nat.eq_dec i l then true else false | _ => false end) cs) eqn:EX.
  - apply existsb_exists in EX as (k & Hk & EX). apply In_nth_error in Hk as [j Hj].
    apply D. right. exists j. split.
    + apply in_seq. split; [lia|]. cbn. apply nth_error_Some. congruence.
    + rewrite Hj. destruct k as [a mask|l|]; cbn; [left; apply Nat.eqb_eq; auto|right; destruct (in_dec _ i l); [auto|discriminate]|discriminate].
  - split; [rewrite E; reflexivity|]. intros c Hc. rewrite E. split.
    + intros _ (k & Hk & F). assert (HF : existsb (fun k => match k with Cartesian a _ => (a =? i)%nat | FixAtoms l => if in_dec Nat.eq_dec i l then true else false | _ => false end) cs = true).
      { apply existsb_exists. exists k. split; [auto|]. destruct k as [a mask|l|]; cbn in F; [apply Nat.eqb_eq, F|destruct (in_dec _ i l); auto|contradiction]. }
      congruence.
    + intros _. destruct c as [|[|[|c]]]; auto; lia.
Qed.
End Create.

Lemma in_argwhere : forall m k q, In q (argwhere k m) <-> (k <= q < k + length m)%nat /\ nth (q - k) m false = true.
Proof.
  induction m as [|b m IH]; intros k q; cbn [argwhere length].
  - cbn. split; [intros []|lia].
  - assert (IHq := IH (S k) q). destruct b.
    + cbn [In]. rewrite IHq. split.
      * intros [->|[H1 H2]]; [split; [lia|rewrite Nat.sub_diag; reflexivity]|]. split; [lia|].
        replace (q - k)%nat with (S (q - S k)) by lia. auto.
      * intros [H1 H2]. destruct (Nat.eq_dec k q); [auto|right]. split; [lia|].
        replace (q - k)%nat with (S (q - S k)) in H2 by lia. auto.
    + rewrite IHq. split.
      * intros [H1 H2]. split; [lia|]. replace (q - k)%nat with (S (q - S k)) by lia. auto.
      * intros [H1 H2]. destruct (Nat.eq_dec k q) as [->|]; [rewrite Nat.sub_diag in H2; discriminate|]. split; [lia|].
        replace (q - k)%nat with (S (q - S k)) in H2 by lia. auto.
Qed.

Lemma argwhere_sorted : forall m k, StronglySorted lt (argwhere k m).
Proof.
  induction m as [|b m IH]; intros k; cbn; [constructor|]. destruct b; [|auto]. constructor; [auto|].
  apply Forall_forall. intros q Hq. apply in_argwhere in Hq. lia.
Qed.

Lemma nth_concat3 : forall (m : list (list bool)) i c, Forall (fun r => length r = 3%nat) m -> (c < 3)%nat ->
  nth (3 * i + c) (concat m) false = nth c (nth i m []) false.
Proof.
  induction m as [|r m IH]; intros i c HF Hc; cbn [concat].
  - rewrite (nth_overflow []) by (cbn; lia). destruct i; rewrite nth_overflow; auto; cbn; lia.
  - inversion HF as [|? ? HL HF']; subst. destruct i as [|i]; cbn [nth].
    + replace (3 * 0 + c)%nat with c by lia. apply app_nth1. lia.
    + rewrite app_nth2 by lia. replace (3 * S i + c - length r)%nat with (3 * i + c)%nat by lia. auto.
Qed.

Lemma concat3_length (m : list (list bool)) : Forall (fun r => length r = 3%nat) m -> length (concat m) = (3 * length m)%nat.
Proof. induction 1 as [|r m HL HF IH]; [reflexivity|]. cbn [concat length]. rewrite app_length, IH. lia. Qed.

(** The mask lists, in increasing order and without repetition, exactly the coordinates
    that no constraint fixes.  Missing for the property: atoms with several constraints of
    which one fixes only some directions, see below. *)
Theorem mask_is_free_coordinates_partial n cs :
  (forall k, In k cs -> valid n k) -> compatible cs ->
  StronglySorted lt (create_mask n cs) /\
  forall i c, (c < 3)%nat -> In (3 * i + c)%nat (create_mask n cs) <-> ((i < n)%nat /\ ~ exists k, In k cs /\ fixes k i c).
Proof.
  intros HV HC. split; [apply argwhere_sorted|]. intros i c Hc. unfold create_mask. rewrite in_argwhere.
  destruct (mask_rows n cs HV HC) as [HL HR]. cbv zeta in HL, HR. set (m := fold_left _ _ _) in *.
  assert (HF : Forall (fun r => length r = 3%nat) m).
  { apply Forall_forall. intros r Hr. apply In_nth with (d := []) in Hr as (j & Hj & <-). apply HR. lia. }
  rewrite concat3_length, HL, Nat.sub_0_r, nth_concat3 by auto. cbn [Nat.add].
  split.
  - intros [H1 H2]. assert (Hi : (i < n)%nat) by lia. split; [auto|]. apply (HR i Hi); auto.
  - intros [Hi HN]. split; [lia|]. apply (HR i Hi); auto.
Qed.

(** The property fails for an atom with two constraints: the whole atom is fixed and its
    x direction is fixed once more; the mask calls y and z free. *)
Theorem mask_overlapping_constraints_refuted :
  create_mask 1 [FixAtoms [0%nat]; Cartesian 0 [true; false; false]] = [1%nat; 2%nat].
Proof. reflexivity. Qed.
(** Two constraints for one direction each of the same atom: only the last one is kept. *)
Theorem mask_two_directions_refuted :
  create_mask 1 [Cartesian 0 [true; false; false]; Cartesian 0 [false; true; false]] = [0%nat; 2%nat].
Proof. reflexivity. Qed.

(** Three atoms: the second one fixed, the third one in z. *)
Definition three_atoms := [FixAtoms [1%nat]; Cartesian 2 [false; false; true]; OtherConstraint].
Example mask_case : create_mask 3 three_atoms = [0; 1; 2; 6; 7]%nat /\
  (forall k, In k three_atoms -> valid 3 k) /\ compatible three_atoms.
Proof.
  split; [reflexivity|]. split.
  - intros k [<-|[<-|[<-|[]]]]; cbn; auto. intros i [<-|[]]. auto.
  - intros j k a mask c Hj Hk Hc. destruct j as [|[|[|j]]]; try discriminate; [|destruct j; discriminate].
    injection Hj as <- <-. destruct k as [|[|[|k]]]; try (destruct k; discriminate); injection Hk as <-; cbn in Hc; auto; [|contradiction].
    destruct Hc as [Hc|[]]; discriminate.
Qed.

(** ** apply_mask and unmask_geometry *)
Lemma take_ok {A} (l : list A) (d : A) : forall idx, (forall i, In i idx -> (i < length l)%nat) -> take l idx = Ok (map (fun i => nth i l d) idx).
Proof.
  induction idx as [|i t IH]; intros H; [reflexivity|]. cbn [take map].
  rewrite (nth_error_nth' l d) by (apply H; cbn; auto). rewrite IH by (intros; apply H; cbn; auto). reflexivity.
Qed.

Lemma take_inv {A} (l : list A) (d : A) : forall idx m, take l idx = Ok m -> (forall i, In i idx -> (i < length l)%nat) /\ m = map (fun i => nth i l d) idx.
Proof.
  induction idx as [|i t IH]; intros m E; cbn [take] in E.
  - injection E as <-. split; [intros i []|auto].
  - destruct (nth_error l i) as [x|] eqn:EN; [|discriminate]. destruct (take l t) as [r|]; [|discriminate]. cbn in E. injection E as <-.
    destruct (IH r eq_refl) as [H1 ->]. assert (i < length l)%nat by (apply nth_error_Some; congruence).
    split; [intros j [<-|Hj]; auto|]. cbn. f_equal. symmetry. apply nth_error_nth. auto.
Qed.

(** Each row keeps exactly the entries of the mask, in the order of the mask. *)
Theorem apply_mask_rows {A} (d : A) : forall rows idx out, apply_mask rows idx = Ok out ->
  out = map (fun r => map (fun i => nth i r d) idx) rows.
Proof.
  induction rows as [|r rows IH]; intros idx out E; cbn [apply_mask] in E.
  - injection E as <-. reflexivity.
  - destruct (take r idx) as [m|] eqn:ET; [|discriminate]. cbn [bind] in E.
    destruct (apply_mask rows idx) as [l|] eqn:EA; [|discriminate]. cbn in E. injection E as <-.
    apply (take_inv _ d) in ET as [_ ->]. cbn. f_equal. apply IH. auto.
Qed.

Lemma write_back_spec {A} (d : A) : forall idx vals geom out, NoDup idx -> write_back geom idx vals = Ok out ->
  length out = length geom /\
  (forall k, (k < length idx)%nat -> nth (nth k idx 0%nat) out d = nth k vals d) /\
  (forall q, ~ In q idx -> nth q out d = nth q geom d).
Proof.
  induction idx as [|i t IH]; intros vals geom out HN E; cbn [write_back] in E.
  - injection E as <-. split; [auto|]. split; [cbn; lia|auto].
  - destruct vals as [|v vt]; [discriminate|]. destruct (Nat.ltb_spec i (length geom)) as [Hi|]; [|discriminate].
    inversion HN as [|? ? Hni HN']; subst. destruct (IH _ _ _ HN' E) as (H1 & H2 & H3). rewrite set_nth_length in H1.
    split; [auto|]. split.
    + intros [|k] Hk; cbn [nth].
      * rewrite H3 by auto. apply nth_set_nth_eq. auto.
      * apply H2. cbn in Hk. lia.
    + intros q Hq. rewrite H3 by (intros Hin; apply Hq; cbn; auto). apply nth_set_nth_neq. intros ->. apply Hq. cbn. auto.
Qed.

(** Writing back: entry k of the masked geometry ends up at the coordinate that entry k
    of the mask names, and all other coordinates are those of the original. *)
Theorem unmask_writes {A} (d : A) g rest vals idx out :
  NoDup idx -> unmask_geometry (g :: rest) vals idx = Ok out ->
  length out = length g /\
  (forall k, (k < length idx)%nat -> nth (nth k idx 0%nat) out d = nth k vals d) /\
  (forall q, ~ In q idx -> nth q out d = nth q g d).
Proof. apply write_back_spec. Qed.

Lemma write_back_total {A} : forall idx vals (geom : list A), length vals = length idx -> (forall i, In i idx -> (i < length geom)%nat) ->
  exists out, write_back geom idx vals = Ok out.
Proof.
  induction idx as [|i t IH]; intros vals geom HL HB; cbn [write_back]; [eauto|].
  destruct vals as [|v vt]; [discriminate|]. assert (Hi : (i < length geom)%nat) by (apply HB; cbn; auto).
  apply Nat.ltb_lt in Hi. rewrite Hi. apply IH; [cbn in HL; lia|]. intros j Hj. rewrite set_nth_length. apply HB. cbn; auto.
Qed.

(** Masking and writing back restores the geometry. *)
Theorem mask_round_trip {A} (g : list A) rest idx masked :
  NoDup idx -> apply_mask [g] idx = Ok [masked] ->
  unmask_geometry (g :: rest) masked idx = Ok g.
Proof.
  intros HN E. cbn in E. destruct (take g idx) as [m|] eqn:ET; [|discriminate]. cbn in E. injection E as <-.
  destruct g as [|d g0] eqn:EG.
  { destruct idx as [|i t]; [reflexivity|]. cbn in ET. destruct i; discriminate. }
  rewrite <- EG in *. clear EG g0.
  apply (take_inv _ d) in ET as [HB ->]. cbn [unmask_geometry].
  destruct (write_back_total idx (map (fun i => nth i g d) idx) g) as [out EO]; [apply map_length|auto|].
  rewrite EO. f_equal. destruct (write_back_spec d _ _ _ _ HN EO) as (H1 & H2 & H3).
  apply nth_ext with d d; [auto|]. intros q Hq. destruct (in_dec Nat.eq_dec q idx) as [Hin|Hin].
  - apply In_nth with (d := 0%nat) in Hin as (k & Hk & <-). rewrite H2 by auto. rewrite (nth_map_lt _ _ _ 0%nat) by auto. auto.
  - auto.
Qed.

Open Scope R_scope.
Example round_trip_three : apply_mask [[1; 2; 3; 4; 5; 6; 7; 8; 9]] [0; 1; 2; 6; 7]%nat = Ok [[1; 2; 3; 7; 8]] /\
  unmask_geometry [[1; 2; 3; 4; 5; 6; 7; 8; 9]] [0; 0; 0; 0; 0] [0; 1; 2; 6; 7]%nat = Ok [0; 0; 0; 4; 5; 6; 0; 0; 9].
Proof. split; reflexivity. Qed.

(** ** The surrogate calculator *)
Open Scope R_scope.

Lemma ase_calc_parts pred idx scaling fs pos e f : NoDup idx ->
  ase_calculate pred idx scaling fs pos = Ok (e, f) ->
  let test := map (fun i => nth i pos 0) idx in
  e = pred test + scaling /\ length f = length pos /\
  (forall q, ~ In q idx -> nth q f 0 = 0) /\
  forall k, (k < length idx)%nat ->
    nth (nth k idx 0%nat) f 0 = - ((pred (set_nth k (nth k test 0 + fs) test) - pred (set_nth k (nth k test 0 - fs) test)) / (2 * fs)).
Proof.
  intros HN E. unfold ase_calculate in E. destruct (take pos idx) as [test|] eqn:ET; [|discriminate]. cbn [bind] in E.
  apply (take_inv _ 0) in ET as [HB ->].
  match type of E with bind ?w _ = _ => destruct w as [g|] eqn:EW; [|discriminate] end. cbn in E. injection E as <- <-.
  destruct (write_back_spec 0 _ _ _ _ HN EW) as (H1 & H2 & H3). rewrite repeat_length in H1.
  intros test. split; [reflexivity|]. split; [rewrite map_length; auto|].
  assert (HO : forall q, nth q (map Ropp g) 0 = - nth q g 0).
  { intros q. rewrite <- (map_nth Ropp). rewrite Ropp_0. auto. }
  split.
  - intros q Hq. rewrite HO, H3 by auto. rewrite nth_repeat. lra.
  - intros k Hk. rewrite HO, H2 by auto. f_equal.
    rewrite (nth_map_lt _ _ _ (0, 0)).
    2:{ rewrite combine_length, !map_length, seq_length, Nat.min_id. auto. }
    rewrite combine_nth by (rewrite !map_length; auto).
    rewrite !(nth_map_lt _ _ _ 0%nat) by (rewrite seq_length; auto). rewrite seq_nth by auto. cbn [fst snd Nat.add].
    replace (nth k test 0) with (nth (nth k idx 0%nat) pos 0) by (unfold test; rewrite (nth_map_lt _ _ _ 0%nat) by auto; auto).
    fold test. unfold Rdiv. f_equal. ring.
Qed.

(** The surrogate energy as a function of coordinate [q] of the structure. *)
Definition surrogate (pred : list R -> R) (idx : list nat) (scaling : R) (pos : list R) : R :=
  pred (map (fun i => nth i pos 0) idx) + scaling.

Lemma set_nth_masked idx pos k t : NoDup idx -> (k < length idx)%nat -> (nth k idx 0%nat < length pos)%nat ->
  map (fun i => nth i (set_nth (nth k idx 0%nat) t pos) 0) idx = set_nth k t (map (fun i => nth i pos 0) idx).
Proof.
  intros HN Hk Hq. apply nth_ext with 0 0; [rewrite set_nth_length, !map_length; auto|].
  intros j Hj. rewrite map_length in Hj. rewrite (nth_map_lt _ _ _ 0%nat) by auto.
  destruct (Nat.eq_dec j k) as [->|Hne].
  - rewrite !nth_set_nth_eq; auto. rewrite map_length; auto.
  - rewrite (nth_set_nth_neq _ _ _ Hne), (nth_map_lt _ _ _ 0%nat) by auto. apply nth_set_nth_neq.
    intros E. apply Hne. apply (proj1 (NoDup_nth idx 0%nat)) in E; auto.
Qed.

(** Energy: the prediction for the free coordinates plus the shift of the targets.  Forces:
    zero on every constrained coordinate; on a free one minus the central difference of
    the surrogate energy as a function of this coordinate of the structure. *)
Theorem surrogate_forces pred idx scaling fs pos e f :
  NoDup idx -> ase_calculate pred idx scaling fs pos = Ok (e, f) ->
  e = surrogate pred idx scaling pos /\ length f = length pos /\
  (forall q, ~ In q idx -> nth q f 0 = 0) /\
  (forall q, In q idx -> nth q f 0 =
     - ((surrogate pred idx scaling (set_nth q (nth q pos 0 + fs) pos) - surrogate pred idx scaling (set_nth q (nth q pos 0 - fs) pos)) / (2 * fs))).
Proof.
  intros HN E. assert (HB : forall i, In i idx -> (i < length pos)%nat).
  { unfold ase_calculate in E. destruct (take pos idx) as [test|] eqn:ET; [|discriminate]. apply (take_inv _ 0) in ET as [HB _]. auto. }
  destruct (ase_calc_parts _ _ _ _ _ _ _ HN E) as (H1 & H2 & H3 & H4). split; [auto|]. split; [auto|]. split; [auto|].
  intros q Hq. pose proof (HB q Hq) as Hlt. apply In_nth with (d := 0%nat) in Hq as (k & Hk & <-). rewrite H4 by auto. unfold surrogate.
  rewrite !set_nth_masked by auto. rewrite (nth_map_lt _ _ _ 0%nat) by auto. f_equal. f_equal. ring.
Qed.

(** Where the surrogate energy is differentiable in a free coordinate q within one finite
    step, the force is minus its derivative at a point of this interval. *)
Theorem surrogate_force_is_slope pred idx scaling fs pos e f q (df : R -> R) :
  NoDup idx -> ase_calculate pred idx scaling fs pos = Ok (e, f) -> In q idx -> 0 < fs ->
  (forall t, nth q pos 0 - fs <= t <= nth q pos 0 + fs -> is_derive (fun t => surrogate pred idx scaling (set_nth q t pos)) t (df t)) ->
  exists t, nth q pos 0 - fs <= t <= nth q pos 0 + fs /\ nth q f 0 = - df t.
Proof.
  intros HN E Hq Hfs HD. destruct (surrogate_forces _ _ _ _ _ _ _ HN E) as (_ & _ & _ & H). rewrite (H q Hq). clear H.
  set (x := nth q pos 0) in *. set (g := fun t => surrogate pred idx scaling (set_nth q t pos)) in *.
  destruct (MVT_gen g (x - fs) (x + fs) df) as (t & Ht & EQ).
  - intros t Ht. rewrite Rmin_left, Rmax_right in Ht by lra. apply HD. lra.
  - intros t Ht. rewrite Rmin_left, Rmax_right in Ht by lra. apply continuity_pt_filterlim.
    apply (ex_derive_continuous (K := R_AbsRing) (V := R_NormedModule) g t). exists (df t). apply HD. lra.
  - rewrite Rmin_left, Rmax_right in Ht by lra. exists t. split; [auto|]. fold (g (x + fs)). fold (g (x - fs)). rewrite EQ. field. lra.
Qed.

(** One free coordinate of two; the prediction is the square of it. *)
Example surrogate_case : ase_calculate (fun l => nth 0 l 0 ^ 2) [1%nat] 5 (/ 2) [7; 3] = Ok (14, [0; -6]) /\ NoDup [1%nat].
Proof.
  split; [|repeat constructor; intros []]. unfold ase_calculate. cbn. f_equal. f_equal; [ring|]. f_equal; [ring|]. f_equal. field.
Qed.

Print Assumptions mask_is_free_coordinates_partial.
Print Assumptions mask_overlapping_constraints_refuted.
Print Assumptions mask_two_directions_refuted.
Print Assumptions apply_mask_rows.
Print Assumptions unmask_writes.
Print Assumptions mask_round_trip.
Print Assumptions surrogate_forces.
Print Assumptions surrogate_force_is_slope.
