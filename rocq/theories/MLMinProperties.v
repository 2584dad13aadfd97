(** Properties of the surrogate minimiser MLMin. *)
From Coq Require Import Reals Lra Lia List Arith Bool.
From Verif Require Import Base BaseFacts RBase OptModel OptProofs.
Import ListNotations.
Open Scope R_scope.

(** ** Specification *)
(** The training data are those of the structures [ss], entry by entry: positions,
    energies and gradients (minus the forces). *)
Definition trained_on (m : mlmin) (ss : list struct) : Prop :=
  m_train m = map s_pos ss /\ m_targets m = map s_energy ss /\
  m_gradients m = map (fun s => map Ropp (s_forces s)) ss.

(** Energy and forces of the structure come from the calculator. *)
Definition calculated (calc : position -> R * list R) (s : struct) : Prop :=
  s_energy s = fst (calc (s_pos s)) /\ s_forces s = snd (calc (s_pos s)).

(** The largest force on an atom of a structure with this gradient is below the limit. *)
Definition below (fmax : R) (gradient : list R) : Prop := exists f, get_fmax gradient = Ok f /\ f < fmax.

(** ** What the largest force is *)
Fixpoint atoms_of (g : list R) : list (R * R * R) :=
  match g with x :: y :: z :: t => (x, y, z) :: atoms_of t | _ => [] end.

Lemma fold_Rmax_spec : forall l a, (fold_left Rmax l a = a \/ In (fold_left Rmax l a) l) /\ a <= fold_left Rmax l a /\ forall x, In x l -> x <= fold_left Rmax l a.
Proof.
  induction l as [|b l IH]; intros a; cbn [fold_left].
  - split; [auto|]. split; [lra|]. intros x [].
  - destruct (IH (Rmax a b)) as (H1 & H2 & H3). pose proof (Rmax_l a b). pose proof (Rmax_r a b).
    split; [|split; [lra|intros x [<-|Hx]; [lra|auto]]].
    destruct H1 as [H1|H1]; [|cbn; auto]. rewrite H1. unfold Rmax. destruct (Rle_dec a b); cbn; auto.
Qed.

Lemma maxR_spec l x : maxR l = Ok x -> In x l /\ forall y, In y l -> y <= x.
Proof.
  destruct l as [|a l]; [discriminate|]. cbn. intros E. injection E as <-. destruct (fold_Rmax_spec l a) as (H1 & H2 & H3).
  split; [destruct H1 as [->|H1]; auto|]. intros y [<-|Hy]; auto.
Qed.

Lemma triples_opp : forall n g, (length g <= n)%nat -> forall r, triples (map Ropp g) = Ok r ->
  r = map (fun q => let '(x, y, z) := q in (- x, - y, - z)) (atoms_of g).
Proof.
  induction n as [|n IH]; intros g Hg r E.
  - destruct g; [|cbn in Hg; lia]. cbn in E. injection E as <-. reflexivity.
  - destruct g as [|x [|y [|z t]]]; cbn in E; try discriminate; [injection E as <-; reflexivity|].
    destruct (triples (map Ropp t)) as [l|] eqn:ET; [|discriminate]. cbn in E. injection E as <-.
    cbn [atoms_of map]. f_equal. apply IH; auto. cbn in Hg. lia.
Qed.

(** The number compared with fmax is the length of the force on one atom, and no atom has
    a longer one. *)
Theorem fmax_is_largest_force g f : get_fmax g = Ok f ->
  let norm q := let '(x, y, z) := q in sqrt (x ^ 2 + y ^ 2 + z ^ 2) in
  (exists q, In q (atoms_of g) /\ f = norm q) /\ forall q, In q (atoms_of g) -> norm q <= f.
Proof.
  intros E norm. unfold get_fmax in E. destruct (triples (map Ropp g)) as [r|] eqn:ET; [|discriminate]. cbn [bind] in E.
  apply (triples_opp (length g)) in ET; [|auto]. subst r. apply maxR_spec in E as [H1 H2]. rewrite map_map in H1, H2.
  assert (HN : forall q : R * R * R, (let '(x, y, z) := (let '(x, y, z) := q in (- x, - y, - z)) in sqrt (x ^ 2 + y ^ 2 + z ^ 2)) = norm q).
  { intros [[x y] z]. unfold norm. f_equal. ring. }
  split.
  - apply in_map_iff in H1 as (q & E & Hq). exists q. split; [auto|]. rewrite <- E. apply HN.
  - intros q Hq. rewrite <- HN. apply H2. apply in_map_iff. eauto.
Qed.

(** ** Starting and restarting *)
Lemma add_previous_spec : forall prev l out seen, add_previous l prev = Ok out -> NoDup (map s_pos l) ->
  (forall p, In p (map s_pos seen) <-> In p (map s_pos l)) ->
  exists kept, out = l ++ kept /\ NoDup (map s_pos out) /\
    (forall p, In p (map s_pos prev) -> In p (map s_pos out)) /\
    (forall s, In s kept -> exists l1 l2, prev = l1 ++ s :: l2 /\ ~ In (s_pos s) (map s_pos (seen ++ l1))) /\
    (exists drop : list bool, length drop = length prev /\ kept = mask_select drop prev).
Proof.
  induction prev as [|p t IH]; intros l out seen E HN HS; cbn [add_previous] in E.
  - injection E as <-. exists []. rewrite app_nil_r. split; [auto|]. split; [auto|]. split; [intros p []|]. split; [intros s []|]. exists []. auto.
  - destruct (is_duplicate _ _) as [b|] eqn:ED; [|discriminate]. cbn [bind] in E. apply is_duplicate_spec in ED.
    assert (HS' : forall q, In q (map s_pos (seen ++ [p])) <-> In q (map s_pos (if b then l else l ++ [p]))).
    { intros q. rewrite map_app, in_app_iff, HS. destruct b; [|rewrite map_app, in_app_iff; tauto].
      cbn. split; [intros [H|[<-|[]]]; auto; apply ED; auto|auto]. }
    assert (HN' : NoDup (map s_pos (if b then l else l ++ [p]))).
    { destruct b; [auto|]. rewrite map_app. apply NoDup_app_intro; [auto|repeat constructor; intros []|].
      intros x H1 [<-|[]]. assert (false = true) by (apply ED; auto). discriminate. }
    destruct (IH _ _ _ E HN' HS') as (kept & -> & K1 & K2 & K3 & drop & K4 & K5).
    destruct b.
    + exists kept. split; [auto|]. split; [auto|]. split; [|split].
      * intros q [<-|Hq]; [|auto]. rewrite map_app. apply in_or_app. left. apply ED. auto.
      * intros s Hs. destruct (K3 s Hs) as (l1 & l2 & -> & H). exists (p :: l1), l2. split; [auto|]. rewrite <- app_assoc in H. auto.
      * exists (false :: drop). cbn. auto.
    + exists (p :: kept). rewrite <- app_assoc. split; [auto|]. rewrite <- app_assoc in K1, K2. split; [auto|]. split; [|split].
      * intros q [<-|Hq]; [|auto]. rewrite map_app. apply in_or_app. right. cbn. auto.
      * intros s [<-|Hs].
        -- exists [], t. split; [auto|]. rewrite app_nil_r, HS. intros H. assert (false = true) by (apply ED; auto). discriminate.
        -- destruct (K3 s Hs) as (l1 & l2 & -> & H). exists (p :: l1), l2. split; [auto|]. rewrite <- app_assoc in H. auto.
      * exists (true :: drop). cbn. split; [auto|]. f_equal. auto.
Qed.

(** The structures of a new optimiser: the initial one, evaluated, and then, in their
    order, those of the given previous structures (an argument; without it, on a restart
    only, the content of the trajectory file) whose geometry is neither that of the initial one nor
    that of an earlier one; the training data and the trajectory file are those of these
    structures and nothing else. *)
Theorem mlmin_start calc x0 restart prev file m :
  mlmin_init calc x0 restart prev file = Ok m ->
  exists given kept keep,
    match prev, restart with
    | Some l, _ => given = l
    | None, true => match file with Some l => given = l | None => given = [] end
    | None, false => given = []
    end /\
    let ss := evaluate calc x0 :: kept in
    trained_on m ss /\ m_file m = ss /\ length (m_maxf m) = length ss /\ m_iter m = 0%nat /\
    kept = mask_select keep given /\ length keep = length given /\
    NoDup (map s_pos ss) /\
    (forall s, In s given -> In (s_pos s) (map s_pos ss)) /\
    (forall s, In s kept -> exists before after, given = before ++ s :: after /\ s_pos s <> x0 /\ ~ In (s_pos s) (map s_pos before)).
Proof.
  intros E. set (given := previous restart prev file). unfold mlmin_init in E. destruct (add_previous _ _) as [l|] eqn:EA; [|discriminate]. cbn [bind] in E.
  destruct (mapr get_fmax _) as [maxf|] eqn:EM; [|discriminate]. cbn in E. injection E as <-.
  destruct (add_previous_spec _ _ _ [evaluate calc x0] EA) as (kept & -> & K1 & K2 & K3 & drop & K4 & K5).
  { repeat constructor. intros []. } { reflexivity. }
  apply mapr_length in EM. rewrite map_length in EM.
  exists given, kept, drop. split; [unfold given, previous; destruct prev, restart, file; reflexivity|]. cbv zeta. cbn [m_file m_iter m_maxf].
  split; [split; [|split]; reflexivity|]. split; [reflexivity|]. split; [exact EM|]. split; [auto|]. split; [auto|]. split; [auto|]. split; [auto|].
  split.
  - intros s Hs. apply K2. apply in_map. auto.
  - intros s Hs. destruct (K3 s Hs) as (l1 & l2 & H1 & H2). exists l1, l2. split; [auto|].
    split; intros H; apply H2; cbn; auto.
Qed.

Lemma add_previous_all : forall prev l, NoDup (map s_pos (l ++ prev)) -> (forall s, In s (l ++ prev) -> length (s_pos s) = length (s_pos (hd (Struct [] 0 []) l))) ->
  l <> [] -> add_previous l prev = Ok (l ++ prev).
Proof.
  induction prev as [|p t IH]; intros l HN HL Hne; cbn [add_previous]; [rewrite app_nil_r; auto|].
  assert (ED : is_duplicate (s_pos p) (map s_pos l) = Ok false).
  { assert (HLp : length (s_pos p) = length (s_pos (hd (Struct [] 0 []) l))) by (apply HL, in_or_app; cbn; auto).
    assert (HLl : forall s, In s l -> length (s_pos s) = length (s_pos p)) by (intros s Hs; rewrite HLp; apply HL, in_or_app; auto).
    assert (HNI : ~ In (s_pos p) (map s_pos l)).
    { rewrite map_app in HN. apply NoDup_app_inv in HN as (_ & _ & H). intros Hin. apply (H (s_pos p)); cbn; auto. }
    clear -HLl HNI. induction l as [|q l IH]; [reflexivity|]. cbn. rewrite HLl by (cbn; auto). rewrite Nat.eqb_refl.
    rewrite IH; [|intros; apply HLl; cbn; auto|intros H; apply HNI; cbn; auto]. cbn. rewrite orb_false_r. f_equal.
    destruct (Rlist_eqb (s_pos q) (s_pos p)) eqn:EQ; [|auto]. apply Rlist_eqb_true in EQ. exfalso. apply HNI. cbn. auto. }
  rewrite ED. cbn [bind]. rewrite IH; rewrite <- ?app_assoc; cbn [app]; auto.
  - intros s Hs. rewrite (HL s) by auto. destruct l; [contradiction|]. reflexivity.
  - destruct l; discriminate.
Qed.

(** Restarting from the file of a run, interrupted at any point: nothing is lost and
    nothing is added, if the file starts with the initial structure and does not contain
    a geometry twice. *)
Theorem mlmin_restart_resumes calc x0 rest :
  NoDup (x0 :: map s_pos rest) -> (forall s, In s rest -> length (s_pos s) = length x0) ->
  (forall s, In s (evaluate calc x0 :: rest) -> exists f, get_fmax (map Ropp (s_forces s)) = Ok f) ->
  exists m, mlmin_init calc x0 true None (Some (evaluate calc x0 :: rest)) = Ok m /\
    trained_on m (evaluate calc x0 :: rest) /\ m_file m = evaluate calc x0 :: rest.
Proof.
  intros HN HL HF. unfold mlmin_init, previous.
  assert (EA : add_previous [evaluate calc x0] (evaluate calc x0 :: rest) = Ok (evaluate calc x0 :: rest)).
  { cbn [add_previous map is_duplicate evaluate s_pos]. rewrite Nat.eqb_refl. cbn [bind].
    replace (Rlist_eqb x0 x0) with true by (symmetry; apply Rlist_eqb_true; auto). cbn [bind orb].
    apply (add_previous_all rest [evaluate calc x0]); [exact HN| |discriminate].
    intros s [<-|Hs]; [reflexivity|]. cbn. auto. }
  rewrite EA. cbn [bind].
  assert (EM : exists mx, mapr get_fmax (map (fun s => map Ropp (s_forces s)) (evaluate calc x0 :: rest)) = Ok mx).
  { revert HF. generalize (evaluate calc x0 :: rest). clear. intros l. induction l as [|s l IH]; intros H; [cbn; eauto|].
    cbn. destruct (H s) as [f ->]; [cbn; auto|]. destruct IH as [mx E]; [intros; apply H; cbn; auto|]. cbn. rewrite E. cbn. eauto. }
  destruct EM as [mx ->]. cbn [bind]. eexists. split; [reflexivity|]. split; [split; [|split]; reflexivity|reflexivity].
Qed.

(** ** One pass of the loop *)
(** The structure evaluated is one of the points visited on the surrogate, with the best
    score of them: lowest energy plus uncertainty, energy minus uncertainty, or energy. *)
Theorem mlmin_acquires_best calc surr a max_step m m' :
  mlmin_step calc surr a max_step m = Ok m' ->
  exists p, In p (visited (surr m) max_step 0 1000) /\ m_train m' = m_train m ++ [p_pos p] /\
    forall q, In q (visited (surr m) max_step 0 1000) ->
      match a with
      | AUcb => p_energy p + p_unc p <= p_energy q + p_unc q
      | ALcb => p_energy p - p_unc p <= p_energy q - p_unc q
      | AMinEnergy => p_energy p <= p_energy q
      | AOther => False
      end.
Proof.
  intros E. unfold mlmin_step in E. destruct (score a) as [sc|] eqn:ES; [|discriminate]. cbn [bind] in E. remember 1000%nat as K eqn:EK. clear EK.
  destruct (best sc _) as [p|] eqn:EB; [|discriminate]. cbn [bind] in E. cbv zeta in E.
  destruct (get_fmax _) as [f|]; [|discriminate]. cbn [bind] in E. injection E as <-.
  apply best_spec in EB as [H1 H2]. exists p. split; [auto|]. split; [reflexivity|]. intros q Hq. specialize (H2 q Hq).
  destruct a; cbn in ES; injection ES as <- || discriminate; cbv beta in H2; lra.
Qed.

Lemma visited_length surr max_step : forall more k, (1 <= length (visited surr max_step k more) <= S more)%nat.
Proof.
  induction more as [|n IH]; intros k; cbn [visited length]; destruct (_ || _)%bool; cbn [length]; try lia.
  specialize (IH (S k)). lia.
Qed.

(** The walk on the surrogate visits at least one point; the last one visited is the only
    one that may be too uncertain or converged. *)
Theorem mlmin_walk_stops surr max_step : forall more k l p l', visited surr max_step k more = l ++ p :: l' -> l' <> [] ->
  p_unc p < max_step /\ p_conv p = false.
Proof.
  induction more as [|n IH]; intros k l p l' E Hne; cbn [visited] in E; destruct (_ || _)%bool eqn:EB.
  - destruct l as [|? [|? ?]]; try discriminate. injection E as _ <-. contradiction.
  - destruct l as [|? [|? ?]]; try discriminate. injection E as _ <-. contradiction.
  - destruct l as [|? [|? ?]]; try discriminate. injection E as _ <-. contradiction.
  - destruct l as [|q l].
    + injection E as <- _. apply orb_false_iff in EB as [E1 E2]. apply negb_false_iff, Rltb_true in E1. auto.
    + injection E as _ E. eapply IH; eauto.
Qed.

Definition extends (calc : position -> R * list R) (m : mlmin) (new : list struct) (m' : mlmin) : Prop :=
  m_train m' = m_train m ++ map s_pos new /\ m_targets m' = m_targets m ++ map s_energy new /\
  m_gradients m' = m_gradients m ++ map (fun s => map Ropp (s_forces s)) new /\
  length (m_maxf m') = (length (m_maxf m) + length new)%nat /\
  m_file m' = m_file m ++ new /\ m_calls m' = m_calls m ++ map s_pos new /\
  m_iter m' = (m_iter m + length new)%nat /\
  Forall (calculated calc) new.

Lemma step_extends calc surr a max_step m m' : mlmin_step calc surr a max_step m = Ok m' -> exists s, extends calc m [s] m'.
Proof.
  intros E. unfold mlmin_step in E. destruct (score a) as [sc|]; [|discriminate]. cbn [bind] in E. remember 1000%nat as K eqn:EK. clear EK.
  destruct (best sc _) as [p|]; [|discriminate]. cbn [bind] in E. cbv zeta in E.
  destruct (get_fmax _) as [f|]; [|discriminate]. cbn [bind] in E. injection E as <-.
  exists (evaluate calc (p_pos p)). repeat split; cbn; auto; try (rewrite app_length; cbn; lia); try lia.
  constructor; [split; reflexivity|constructor].
Qed.

(** After a pass the run counts as converged when every atom of the structure evaluated
    last has a force shorter than fmax. *)
Definition force_norm (q : R * R * R) : R := let '(x, y, z) := q in sqrt (x ^ 2 + y ^ 2 + z ^ 2).

Lemma atoms_of_opp : forall n g, (length g <= n)%nat -> atoms_of (map Ropp g) = map (fun q => let '(x, y, z) := q in (- x, - y, - z)) (atoms_of g).
Proof.
  induction n as [|n IH]; intros [|x [|y [|z t]]] H; cbn in H; try lia; try reflexivity.
  cbn [map atoms_of]. f_equal. apply IH. lia.
Qed.

Lemma fmax_of_forces forces f : get_fmax (map Ropp forces) = Ok f ->
  (exists q, In q (atoms_of forces) /\ f = force_norm q) /\ forall q, In q (atoms_of forces) -> force_norm q <= f.
Proof.
  intros E. apply fmax_is_largest_force in E. cbv zeta in E. rewrite (atoms_of_opp _ _ (le_n _)) in E.
  assert (HN : forall q : R * R * R, (let '(x, y, z) := (let '(x, y, z) := q in (- x, - y, - z)) in sqrt (x ^ 2 + y ^ 2 + z ^ 2)) = force_norm q)
    by (intros [[x y] z]; unfold force_norm; f_equal; ring).
  destruct E as [(q & Hq & E) H]. split.
  - apply in_map_iff in Hq as (p & <- & Hp). exists p. split; [auto|]. rewrite E. apply HN.
  - intros p Hp. rewrite <- HN. apply H. apply in_map_iff. eauto.
Qed.

Theorem convergence_of_last_structure calc surr a max_step fmax m m' : mlmin_step calc surr a max_step m = Ok m' ->
  exists x b, m_calls m' = m_calls m ++ [x] /\ converged fmax m' = Ok b /\ atoms_of (snd (calc x)) <> [] /\
  (b = true <-> forall q, In q (atoms_of (snd (calc x))) -> force_norm q < fmax).
Proof.
  intros E. unfold mlmin_step in E. destruct (score a) as [sc|]; [|discriminate]. cbn [bind] in E. remember 1000%nat as K eqn:EK. clear EK.
  destruct (best sc _) as [p|]; [|discriminate]. cbn [bind] in E. cbv zeta in E.
  destruct (get_fmax _) as [f|] eqn:EF; [|discriminate]. cbn [bind] in E. injection E as <-.
  exists (p_pos p), (Rltb f fmax). split; [reflexivity|]. cbn [evaluate s_forces] in EF. split.
  - unfold converged, last_gradient. cbn [m_gradients]. rewrite last_last. cbn [evaluate s_forces]. rewrite EF. reflexivity.
  - destruct (fmax_of_forces _ _ EF) as [(q & Hq & E) H]. split; [intros EN; rewrite EN in Hq; destruct Hq|].
    rewrite Rltb_true. split; [intros HL r Hr; specialize (H r Hr); lra|]. intros HA. rewrite E. auto.
Qed.

Lemma extends_trans calc m1 n1 m2 n2 m3 : extends calc m1 n1 m2 -> extends calc m2 n2 m3 -> extends calc m1 (n1 ++ n2) m3.
Proof.
  intros (A1 & A2 & A3 & A4 & A5 & A6 & A7 & A8) (B1 & B2 & B3 & B4 & B5 & B6 & B7 & B8).
  unfold extends. rewrite !map_app, app_length.
  split; [rewrite B1, A1, app_assoc; auto|]. split; [rewrite B2, A2, app_assoc; auto|]. split; [rewrite B3, A3, app_assoc; auto|].
  split; [lia|]. split; [rewrite B5, A5, app_assoc; auto|]. split; [rewrite B6, A6, app_assoc; auto|]. split; [lia|].
  apply Forall_app. auto.
Qed.

Lemma converged_spec fmax m b : converged fmax m = Ok b -> b = true <-> below fmax (last_gradient m).
Proof.
  unfold converged, below. destruct (get_fmax (last_gradient m)) as [f|]; [|discriminate]. cbn. intros E. injection E as <-.
  rewrite Rltb_true. split; [eauto|]. intros (g & E & H). congruence.
Qed.

Lemma loop_spec calc surr a fmax max_step steps : forall fuel m, (S (steps - m_iter m) <= fuel)%nat ->
  exists r, mlmin_loop fuel calc surr a fmax max_step steps m = Some r /\
  forall m', r = Ok m' -> exists new, extends calc m new m' /\
    (forall l1 g l2, last_gradient m :: map (fun s => map Ropp (s_forces s)) new = l1 ++ g :: l2 -> l2 <> [] -> ~ below fmax g) /\
    (below fmax (last_gradient m') \/ length new = Nat.max 1 (steps - m_iter m)) /\
    (length new <= Nat.max 1 (steps - m_iter m))%nat.
Proof.
  induction fuel as [|fuel IH]; intros m HF; [lia|]. cbn [mlmin_loop].
  destruct (converged fmax m) as [[|]|e] eqn:EC.
  - eexists. split; [reflexivity|]. intros m' E. injection E as <-. exists []. split.
    + unfold extends. cbn. rewrite !app_nil_r, !Nat.add_0_r. repeat split; auto.
    + split; [intros [|? [|? ?]] g l2 E; try discriminate; injection E as _ <-; intros []; auto|]. split; [left; eapply converged_spec; eauto|cbn [length]; lia].
  - pose proof (proj1 (not_iff_compat (converged_spec _ _ _ EC)) ltac:(discriminate)) as HNB.
    destruct (mlmin_step calc surr a max_step m) as [m1|e] eqn:ES; [|eexists; split; [reflexivity|discriminate]].
    destruct (step_extends _ _ _ _ _ _ ES) as [s HX]. pose proof HX as (A1 & A2 & A3 & A4 & A5 & A6 & A7 & A8). cbn in A7.
    assert (LG : last_gradient m1 = map Ropp (s_forces s)) by (unfold last_gradient; rewrite A3; apply last_last).
    destruct (Nat.leb_spec steps (m_iter m1)) as [HL|HL].
    + eexists. split; [reflexivity|]. intros m' E. injection E as <-. exists [s]. split; [auto|]. split; [|split].
      * intros l1 g l2 E; destruct l1 as [|? [|? [|? ?]]]; try discriminate; cbn in E.
        -- injection E as <- _. auto.
        -- injection E as _ _ <-. intros []; auto.
      * right. cbn [length]; lia.
      * cbn [length]; lia.
    + destruct (IH m1 ltac:(lia)) as (r & -> & HR). exists r. split; [auto|]. intros m' ->. destruct (HR m' eq_refl) as (new & B1 & B2 & B3 & B4).
      exists (s :: new). split; [apply (extends_trans calc m [s] m1 new m'); auto|]. split; [|split].
      * intros l1 g l2 E Hne. destruct l1 as [|x l1].
        -- injection E as <- _. auto.
        -- cbn in E. injection E as _ E. apply (B2 l1 g l2); auto. rewrite LG. auto.
      * destruct B3 as [B3|B3]; [auto|right]. cbn [length]; lia.
      * cbn [length]; lia.
  - eexists. split; [reflexivity|discriminate].
Qed.

(** ** A run *)
(** Every run ends.  If it ends without an error: the training data and the file have
    grown by the structures evaluated in this run, in order; the calculator was called
    once per iteration and energies and forces are those of the call; no evaluation but
    the last is converged; and the run stopped because the last one is, or after the
    number of steps (at least one; earlier iterations of the object count). *)
Theorem mlmin_run_consistent calc surr a fmax max_step steps m :
  exists r, mlmin_run calc surr a fmax max_step steps m = Some r /\
  forall m', r = Ok m' -> exists new, extends calc m new m' /\
    (forall l1 g l2, last_gradient m :: map (fun s => map Ropp (s_forces s)) new = l1 ++ g :: l2 -> l2 <> [] -> ~ below fmax g) /\
    (below fmax (last_gradient m') \/ length new = Nat.max 1 (steps - m_iter m)) /\
    (length new <= Nat.max 1 (steps - m_iter m))%nat.
Proof. apply loop_spec. lia. Qed.

(** From the start, over any number of runs with any settings: entry i of the lists of
    points, energies and gradients is of structure i of the file. *)
Inductive reached (calc : position -> R * list R) (x0 : position) : mlmin -> Prop :=
| at_start restart prev file m : mlmin_init calc x0 restart prev file = Ok m -> reached calc x0 m
| after_run m surr a fmax max_step steps m' : reached calc x0 m ->
    mlmin_run calc surr a fmax max_step steps m = Some (Ok m') -> reached calc x0 m'.

Theorem mlmin_data_consistent calc x0 m : reached calc x0 m ->
  exists ss, ss <> [] /\ trained_on m ss /\ m_file m = ss /\ length (m_maxf m) = length ss /\
    length (m_calls m) = S (m_iter m) /\ hd_error ss = Some (evaluate calc x0).
Proof.
  induction 1 as [restart prev file m E|m surr a fmax max_step steps m' HR IH E].
  - destruct (mlmin_start _ _ _ _ _ _ E) as (given & kept & keep & _ & A & B & C & D & _). exists (evaluate calc x0 :: kept).
    split; [discriminate|]. split; [auto|]. split; [auto|]. split; [auto|]. split; [|auto].
    unfold mlmin_init in E. destruct (add_previous _ _) as [l|]; [|discriminate]. cbn [bind] in E.
    destruct (mapr get_fmax _) as [maxf|]; [|discriminate]. cbn in E. injection E as <-. reflexivity.
  - destruct IH as (ss & Hne & (T1 & T2 & T3) & F & M & C & H0). destruct (mlmin_run_consistent calc surr a fmax max_step steps m) as (r & ER & HX).
    rewrite ER in E. injection E as ->. destruct (HX m' eq_refl) as (new & (A1 & A2 & A3 & A4 & A5 & A6 & A7 & A8) & _).
    exists (ss ++ new). split; [destruct ss; [contradiction|discriminate]|]. split; [split; [|split]; rewrite map_app; congruence|].
    split; [congruence|]. split; [rewrite app_length; lia|]. split; [rewrite A6, app_length, map_length; lia|].
    destruct ss; [contradiction|]. auto.
Qed.

(** ** The list of Atoms objects *)
(** Looking at an element of list_atoms. *)
Definition look (m : mlmin) (r : atoms_ref) : position := match r with Previous s => s_pos s | Shared => m_shared m end.

(** At the start list_atoms are the structures of the training data. *)
Theorem list_atoms_at_start_partial calc x0 restart prev file m :
  mlmin_init calc x0 restart prev file = Ok m -> map (look m) (m_atoms m) = m_train m.
Proof.
  intros E. destruct (mlmin_start _ _ _ _ _ _ E) as (given & kept & keep & _ & (T1 & _) & _). unfold mlmin_init in E.
  destruct (add_previous _ _) as [l|] eqn:EA; [|discriminate]. cbn [bind] in E. destruct (mapr get_fmax _); [|discriminate]. cbn in E. injection E as <-.
  cbn in T1. cbn. destruct l as [|s l]; [discriminate|]. cbn in T1 |- *. injection T1 as -> _. f_equal. rewrite map_map. apply map_ext. auto.
Qed.

(** After a run that evaluates a new geometry they are not: the first element is the same
    object as the last one and shows the last geometry. *)
Theorem list_atoms_after_step_refuted calc x0 restart prev file m surr a max_step m' :
  mlmin_init calc x0 restart prev file = Ok m -> mlmin_step calc surr a max_step m = Ok m' ->
  m_shared m' <> x0 -> map (look m') (m_atoms m') <> m_train m'.
Proof.
  intros E E2 Hne HE. destruct (mlmin_start _ _ _ _ _ _ E) as (given & kept & keep & _ & (T1 & _) & _).
  assert (HA : exists t, m_atoms m = Shared :: t).
  { unfold mlmin_init in E. destruct (add_previous _ _) as [l|]; [|discriminate]. cbn [bind] in E. destruct (mapr get_fmax _); [|discriminate].
    cbn in E. injection E as <-. cbn. eauto. }
  destruct HA as [t HA].
  assert (HS : m_atoms m' = Shared :: t ++ [Shared] /\ exists p, m_train m' = m_train m ++ [p]).
  { unfold mlmin_step in E2. destruct (score a) as [sc|]; [|discriminate]. cbn [bind] in E2. remember 1000%nat as K eqn:EK. clear EK.
    destruct (best sc _) as [p|]; [|discriminate]. cbn [bind] in E2. cbv zeta in E2.
    destruct (get_fmax _) as [f|]; [|discriminate]. cbn [bind] in E2. injection E2 as <-. cbn [m_atoms m_train]. rewrite HA. cbn. eauto. }
  destruct HS as [HS [p HT]]. rewrite HS, HT, T1 in HE. cbn in HE. injection HE as HE _. auto.
Qed.

(** ** A run to the minimum of x^2 *)
Definition calc_x2 (p : position) : R * list R := (nth 0 p 0 ^ 2, [- (2 * nth 0 p 0); 0; 0]).

Lemma sqrt_sq x : sqrt (x ^ 2 + 0 ^ 2 + 0 ^ 2) = Rabs x.
Proof. replace (x ^ 2 + 0 ^ 2 + 0 ^ 2) with (x²) by (unfold Rsqr; ring). apply sqrt_Rsqr_abs. Qed.

Example mlmin_case : exists m m',
  mlmin_init calc_x2 [1; 0; 0] true None None = Ok m /\
  mlmin_run calc_x2 (fun _ _ => MLPoint [0; 0; 0] 0 0 true) AMinEnergy (1/20) (1/4) 10 m = Some (Ok m') /\
  m_train m' = [[1; 0; 0]; [0; 0; 0]] /\ m_targets m' = [1 ^ 2; 0 ^ 2] /\ m_iter m' = 1%nat.
Proof.
  assert (F1 : get_fmax [- - (2 * 1); - 0; - 0] = Ok 2).
  { unfold get_fmax. cbn. f_equal. replace (_ + _ + _) with (2 ^ 2 + 0 ^ 2 + 0 ^ 2) by ring. rewrite sqrt_sq. apply Rabs_pos_eq. lra. }
  assert (F0 : get_fmax [- - (2 * 0); - 0; - 0] = Ok 0).
  { unfold get_fmax. cbn. f_equal. replace (_ + _ + _) with (0 ^ 2 + 0 ^ 2 + 0 ^ 2) by ring. rewrite sqrt_sq. apply Rabs_R0. }
  unfold mlmin_init, previous. cbn [add_previous bind map evaluate calc_x2 s_forces s_pos s_energy fst snd nth mapr tl].
  rewrite F1. cbn [bind]. eexists _, _. split; [reflexivity|]. split.
  - unfold mlmin_run. cbn [m_iter Nat.sub]. remember 9%nat as k eqn:Ek. clear Ek. cbn [mlmin_loop]. unfold converged, last_gradient. cbn [m_gradients last]. rewrite F1. cbn [bind].
    replace (Rltb 2 (1/20)) with false by (symmetry; apply Rltb_false; lra).
    unfold mlmin_step. cbn [visited p_conv]. rewrite orb_true_r. cbn [score bind best best_from evaluate calc_x2 s_forces s_pos s_energy fst snd nth p_pos map].
    rewrite F0. cbn [bind m_iter m_train m_targets m_gradients m_maxf m_file m_atoms m_calls app Nat.leb last].
    rewrite F0. cbn [bind]. replace (Rltb 0 (1/20)) with true by (symmetry; apply Rltb_true; lra). destruct (k <=? 0)%nat; reflexivity.
  - cbn. repeat split.
Qed.

Print Assumptions fmax_is_largest_force.
Print Assumptions convergence_of_last_structure.
Print Assumptions mlmin_start.
Print Assumptions mlmin_restart_resumes.
Print Assumptions mlmin_acquires_best.
Print Assumptions mlmin_walk_stops.
Print Assumptions mlmin_run_consistent.
Print Assumptions mlmin_data_consistent.
Print Assumptions list_atoms_at_start_partial.
Print Assumptions list_atoms_after_step_refuted.
