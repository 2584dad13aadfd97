(** Properties C28, C29, C30, C73-C77: the two SQLite backed stores. *)
From Coq Require Import String List Arith Bool Lia Permutation Sorting.Sorted.
From Verif Require Import Base BaseFacts DBModel DBSpec DBProofs.
Import ListNotations.
Local Open Scope string_scope.

(** ** C28.  After any history on a new file (calls that raised included), a
    query by id returns for every requested column the value the per cell
    specification gives, and raises IndexError exactly when no row was ever
    filled for the id. *)
Theorem query_after_any_history {V} (show : V -> string) ops cols id names :
  Forall no_uuid_update ops ->
  spec_columns ops = Some cols ->
  names <> [] -> (forall n, In n names -> In n cols) ->
  query_id (drun show ops fresh) id (Some names) =
    match spec_value ops id (hd "" names) with
    | None => Err IndexError
    | Some _ => Ok (map (fun n => match spec_value ops id n with
                                  | Some (Some v) => Num v
                                  | _ => Null end) names)
    end.
Proof.
  intros F C NE H.
  assert (A := fun n => fresh_run_agrees show ops id n F).
  destruct (A (hd "" names)) as [A1 A2]. rewrite C in A1.
  unfold agrees in A1. destruct (seen (drun show ops fresh)) as [t|] eqn:E; [|tauto].
  destruct A1 as [<- W].
  rewrite (query_id_value _ t) by auto.
  unfold cell_agrees in A2. rewrite E in A2. unfold row_value in A2.
  assert (B : forall n, spec_value ops id n =
     match find (fun r => String.eqb (fst r) id) (t_rows t) with
     | Some r => Some (assoc n (combine (t_cols t) (snd r))) | None => None end).
  { intros n. destruct (A n) as [_ A3]. unfold cell_agrees in A3. rewrite E in A3. exact A3. }
  rewrite A2. destruct (find _ (t_rows t)) as [r|] eqn:Fd; auto.
  f_equal. apply map_ext. intros n. rewrite B.
  destruct (assoc n _); reflexivity.
Qed.

(** The columns listed are those created, in order. *)
Theorem columns_after_any_history {V} (show : V -> string) ops :
  Forall no_uuid_update ops ->
  get_column_names (drun show ops fresh) =
    match spec_columns ops with Some cols => Ok ("uuid" :: cols) | None => Err OperationalError end.
Proof.
  intros F. destruct (fresh_run_agrees show ops "" "" F) as [A _].
  unfold agrees in A. unfold get_column_names.
  destruct (seen (drun show ops fresh)) as [t|]; destruct (spec_columns ops); try tauto.
  destruct A as [<- _]. reflexivity.
Qed.

(** Frame: an update of one descriptor of one id leaves every other cell of
    every id as it was. *)
Theorem update_changes_no_other_cell {V} (show : V -> string) ops cols id name v id' n' :
  Forall no_uuid_update ops -> name <> "uuid" ->
  spec_columns ops = Some cols -> In n' cols ->
  id' <> id \/ n' <> name ->
  query_id (fst (update_descriptor show name v id (drun show ops fresh))) id' (Some [n']) =
  query_id (drun show ops fresh) id' (Some [n']).
Proof.
  intros F NU C I D.
  assert (R : fst (update_descriptor show name v id (drun show ops fresh)) =
              drun show (ops ++ [Update name v id]) fresh).
  { assert (X : forall c, drun show (ops ++ [Update name v id]) c =
                 fst (update_descriptor show name v id (drun show ops c))).
    { clear. induction ops as [|o t IH]; intros c; simpl; auto. }
    rewrite X. reflexivity. }
  rewrite R.
  assert (S : forall i n st cv, spec_run i n (ops ++ [Update name v id]) st cv =
     (fst (spec_run i n ops st cv),
      spec_cell i n (fst (spec_run i n ops st cv)) (snd (spec_run i n ops st cv)) (Update name v id))).
  { clear. intros i n. induction ops as [|o t IH]; intros st cv.
    - simpl. destruct st; reflexivity.
    - simpl app. cbn [spec_run]. apply IH. }
  assert (SV : spec_value (ops ++ [Update name v id]) id' n' = spec_value ops id' n').
  { unfold spec_value. rewrite S. cbn [snd spec_cell].
    destruct (fst (spec_run id' n' ops None None)); auto.
    destruct (snd (spec_run id' n' ops None None)) as [w|]; auto.
    destruct (String.eqb name n') eqn:E1; destruct (String.eqb id id') eqn:E2; simpl; auto.
    apply String.eqb_eq in E1, E2. subst. destruct D; congruence. }
  assert (F' : Forall no_uuid_update (ops ++ [Update name v id])).
  { apply Forall_app. split; auto. }
  assert (C' : spec_columns (ops ++ [Update name v id]) = Some cols).
  { unfold spec_columns in *. rewrite fold_left_app, C. reflexivity. }
  rewrite (query_after_any_history show _ cols id' [n'] F' C') by (simpl; intuition congruence).
  rewrite (query_after_any_history show _ cols id' [n'] F C) by (simpl; intuition congruence).
  simpl. rewrite SV. reflexivity.
Qed.

(** A history with a repeated fill, a late column, an update before and after. *)
Definition ex_ops : list (dcall nat) :=
  [CreateDb ["a"; "b"]; Update "a" 9 "x"; Fill ["a"; "b"] [("x", [Some 1; Some 2]); ("y", [Some 3; Some 4])];
   CreateColumn ["t"]; Update "b" 7 "x"; Fill ["a"; "b"; "t"] [("x", [Some 5; Some 5; Some 5])];
   Fill ["a"] [("z", [Some 1])]].

Example query_after_any_history_ex :
  Forall no_uuid_update ex_ops /\ spec_columns ex_ops = Some ["a"; "b"; "t"] /\
  query_id (drun (fun _ => "") ex_ops fresh) "x" (Some ["t"; "b"; "a"]) = Ok [Null; Num 7; Num 1] /\
  query_id (drun (fun _ => "") ex_ops fresh) "z" (Some ["a"]) = Err IndexError.
Proof. split; [repeat constructor; discriminate|repeat split]. Qed.

(** ** C73.  fill_db(descriptor_names, data) is documented to take data
    "corresponding to the descriptor names provided", but the names are not used:
    values land in table order. *)
Theorem fill_ignores_names_refuted :
  exists (ops : list (dcall nat)),
    Forall no_uuid_update ops /\
    doutcomes (fun _ => "") ops fresh = [Ok tt; Ok tt] /\
    In (Fill ["b"; "a"] [("x", [Some 1; Some 2])]) ops /\
    query_id (drun (fun _ => "") ops fresh) "x" (Some ["b"]) = Ok [Num 2].
Proof.
  exists [CreateDb ["a"; "b"]; Fill ["b"; "a"] [("x", [Some 1; Some 2])]].
  split; [repeat constructor|]. split; [reflexivity|]. split; [simpl; auto|reflexivity].
Qed.

(** In general the outcome does not depend on the names at all. *)
Theorem fill_depends_only_on_name_count {V} names names' data (c : conn V) :
  length names = length names' -> fill_db names data c = fill_db names' data c.
Proof. intros L. unfold fill_db. rewrite L. reflexivity. Qed.

(** The part that holds: with the names in table order every value of the first
    row of a new id is found under its name. *)
Theorem fill_in_table_order_partial {V} (show : V -> string) ops cols id vals rest :
  Forall no_uuid_update ops -> spec_columns ops = Some cols -> cols <> [] ->
  length vals = length cols ->
  (forall n, spec_value ops id n = None) ->
  query_id (drun show (ops ++ [Fill cols ((id, vals) :: rest)]) fresh) id (Some cols) =
    Ok (map cell_of vals).
Proof.
  intros F C NE L N.
  set (ops' := (ops ++ [Fill cols ((id, vals) :: rest)])%list).
  assert (F' : Forall no_uuid_update ops') by (apply Forall_app; split; auto; repeat constructor).
  assert (C' : spec_columns ops' = Some cols).
  { unfold ops', spec_columns in *. rewrite fold_left_app, C. reflexivity. }
  assert (SV : forall n, spec_value ops' id n = Some (assoc n (combine cols vals))).
  { intros n. unfold ops', spec_value.
    assert (S : forall st cv, spec_run id n (ops ++ [Fill cols ((id, vals) :: rest)]) st cv =
       (fst (spec_run id n ops st cv),
        spec_cell id n (fst (spec_run id n ops st cv)) (snd (spec_run id n ops st cv))
                  (Fill cols ((id, vals) :: rest)))).
    { clear. induction ops as [|o t IH]; intros st cv.
      - simpl. destruct st; reflexivity.
      - simpl app. cbn [spec_run]. apply IH. }
    rewrite S. cbn [snd]. specialize (N n). unfold spec_value in N. rewrite N.
    rewrite spec_run_cols. unfold spec_columns in C. rewrite C. cbn [spec_cell].
    rewrite Nat.eqb_refl. cbn [accepted_rows snd]. rewrite L, Nat.eqb_refl. cbn [find fst].
    rewrite String.eqb_refl. reflexivity. }
  rewrite (query_after_any_history show ops' cols id cols F' C' NE) by auto.
  rewrite SV. f_equal.
  assert (ND : NoDup cols).
  { destruct (fresh_run_agrees show ops "" "" F) as [A _]. unfold agrees in A. rewrite C in A.
    destruct (seen (drun show ops fresh)); [|tauto]. destruct A as [<- [W _]]. inversion W; auto. }
  apply (@list_ext_nth _ Null).
  - rewrite !map_length. auto.
  - intros i Hi. rewrite map_length in Hi.
    rewrite (nth_map_lt _ _ _ "") by auto.
    rewrite (nth_map_lt _ _ _ None) by lia. rewrite SV.
    rewrite (@assoc_nth V _ cols vals i L).
    + destruct (nth i vals None); reflexivity.
    + clear -Hi ND. revert i Hi. induction cols as [|c t IH]; simpl; [lia|].
      inversion ND; subst. intros [|i] Hi; simpl.
      * rewrite String.eqb_refl; auto.
      * destruct (String.eqb (nth i t "") c) eqn:E.
        -- apply String.eqb_eq in E. exfalso. apply H1. rewrite <- E. apply nth_In. lia.
        -- rewrite IH by (auto; lia). reflexivity.
Qed.

Example fill_in_table_order_ex :
  query_id (drun (fun _ => "") [CreateDb ["a"; "b"]; CreateColumn ["t"];
     Fill ["a"; "b"; "t"] [("x", [Some 1; None; Some 3]); ("x", [Some 4; Some 5; Some 6])]] fresh)
     "x" (Some ["a"; "b"; "t"]) = Ok [Num 1; Null; Num 3].
Proof. reflexivity. Qed.

(** ** C74.  Durability: when every call of a history succeeded, a crash after it
    loses nothing; queries answer the same on reopening. *)
Theorem successful_calls_survive_crash {V} (show : V -> string) ops :
  Forall (fun r => r = Ok tt) (doutcomes show ops fresh) ->
  crash (drun show ops fresh) = drun show ops fresh.
Proof.
  assert (X : forall c : conn V, seen c = committed c ->
     Forall (fun r => r = Ok tt) (doutcomes show ops c) ->
     seen (drun show ops c) = committed (drun show ops c)).
  { induction ops as [|o t IH]; intros c H F; simpl in *; auto.
    inversion F; subst. apply IH; auto. apply step_durable; auto. }
  intros F. specialize (X fresh eq_refl F). unfold crash.
  destruct (drun show ops fresh); simpl in *. subst; reflexivity.
Qed.

Example successful_calls_survive_crash_ex :
  doutcomes (fun _ => "") (firstn 6 ex_ops) fresh = repeat (Ok tt) 6 /\
  committed (drun (fun _ => "") (firstn 6 ex_ops) fresh) =
  Some (mkTable ["a"; "b"; "t"] [("x", [Some 1; Some 7; None]); ("y", [Some 3; Some 4; None]);
                                 ("x", [Some 5; Some 5; Some 5])]).
Proof. split; reflexivity. Qed.

(** ** C75.  fill_db is not atomic: a call that raises because of a ragged row
    leaves the earlier rows in the table (and the next successful update makes
    them permanent). *)
Theorem failed_fill_leaves_rows_refuted :
  exists (c : conn nat) names data,
    seen c = committed c /\ snd (fill_db names data c) = Err ValueError /\
    query_id c "x" (Some ["a"]) = Err IndexError /\
    query_id (fst (fill_db names data c)) "x" (Some ["a"]) = Ok [Num 1] /\
    query_id (crash (fst (update_descriptor (fun _ => "") "a" 5 "y" (fst (fill_db names data c)))))
             "x" (Some ["a"]) = Ok [Num 1].
Proof.
  exists (fst (create_db ["a"] fresh)), ["a"], [("x", [Some 1]); ("y", [])].
  repeat split.
Qed.

(** The part that holds: a failing call never alters or removes a row that was
    there, and a crash right after it discards the partial rows. *)
Theorem failed_fill_keeps_old_rows_partial {V} names data (c : conn V) t e :
  seen c = Some t -> snd (fill_db names data c) = Err e ->
  (exists extra, seen (fst (fill_db names data c)) = Some (mkTable (t_cols t) (t_rows t ++ extra))) /\
  committed (fst (fill_db names data c)) = committed c /\
  seen (crash (fst (fill_db names data c))) = committed c.
Proof.
  intros E R. unfold crash. cbn [seen]. unfold fill_db in *. rewrite E in *.
  destruct (Nat.eqb (length names) (length (t_cols t))).
  - pose proof (insert_rows_spec (length names) data t) as I.
    destruct (insert_rows (length names) data t) as [t' [u|e']]; simpl in *; [discriminate|].
    subst t'. split; eauto.
  - simpl in *. split; auto. exists []. rewrite app_nil_r. rewrite E. destruct t; reflexivity.
Qed.

(** ** C29.  Fingerprints: after any history on an empty file the value stored
    for (image, parameter) is the first one successfully written for the pair,
    and there is none exactly when no write succeeded. *)
Theorem fingerprint_is_first_written {V} (show_nat : nat -> string) (ops : list (fcall V)) a pid :
  stored (fseen (frun show_nat ops (open_file empty_fdb))) a pid =
  first_written (writes show_nat ops (open_file empty_fdb)) a pid.
Proof.
  assert (X : forall ops (c : fconn V), fwf (fseen c) ->
    stored (fseen (frun show_nat ops c)) a pid =
    match stored (fseen c) a pid with
    | Some v => Some v
    | None => first_written (writes show_nat ops c) a pid end).
  { clear ops. induction ops as [|op t IH]; intros c W.
    - simpl. destruct (stored (fseen c) a pid); reflexivity.
    - cbn [frun writes]. rewrite IH by (apply step_fwf; auto).
      rewrite step_stored by auto. destruct (stored (fseen c) a pid) as [v|]; auto.
      unfold first_written. rewrite find_app.
      destruct op as [b g|s g|b p v]; cbn [find]; auto.
      destruct (snd (fstep show_nat (Entry b p v) c)); cbn [find]; auto.
      destruct (resolve p (fseen c)) as [n|]; cbn [find fst snd]; auto.
      destruct (String.eqb b a && (Nat.eqb n pid)); reflexivity. }
  rewrite X by apply fwf_empty. reflexivity.
Qed.

(** Later calls of any kind never change a stored value. *)
Theorem stored_value_is_final {V} (show_nat : nat -> string) (ops later : list (fcall V)) a pid v :
  let c := frun show_nat ops (open_file empty_fdb) in
  stored (fseen c) a pid = Some v ->
  stored (fseen (frun show_nat later c)) a pid = Some v.
Proof.
  intros c. assert (W : fwf (fseen c)) by (apply run_fwf, fwf_empty).
  clearbody c. revert c W. induction later as [|op t IH]; intros c W H; simpl; auto.
  apply IH; [apply step_fwf; auto|]. rewrite step_stored by auto. rewrite H. reflexivity.
Qed.

Definition ex_fops : list (fcall nat) :=
  [Image "b" 0; Image "a" 0; Image "b" 3; Param (Some "p") 0; Param (Some "q") 0;
   Entry "b" (BySymbol "p") 1; Entry "a" (BySymbol "p") 3; Entry "b" (ById 1) 8;
   Entry "a" (BySymbol "q") 4; Entry "b" (BySymbol "q") 2; Entry "c" (ById 1) 5; Entry "a" (BySymbol "z") 5].

Example fingerprint_is_first_written_ex :
  let c := frun (fun _ => "") ex_fops (open_file empty_fdb) in
  stored (fseen c) "b" 1 = Some 1 /\ stored (fseen c) "a" 2 = Some 4 /\ stored (fseen c) "c" 1 = None /\
  length (writes (fun _ => "") ex_fops (open_file empty_fdb)) = 5.
Proof. repeat split. Qed.

(** ** C30.  The rows of get_fingerprints do not follow the request: any
    reordering of the ids (and of integer parameter ids) returns the same
    matrix. *)
Theorem get_fingerprints_ignores_request_order {V} tt_ (zero : V) ids ids' p c :
  Permutation ids ids' ->
  get_fingerprints tt_ zero ids p c = get_fingerprints tt_ zero ids' p c.
Proof.
  intros P. unfold get_fingerprints. destruct (select_params p (fseen c)) as [pids|e]; simpl; auto.
  pose proof (Permutation_length P) as L.
  destruct ids as [|x [|y t]]; destruct ids' as [|x' [|y' t']]; simpl in L; try discriminate; auto.
  rewrite (joined_perm (fseen c) pids _ _ P). rewrite (Permutation_length P). reflexivity.
Qed.

Theorem get_fingerprints_request_order_refuted :
  exists (ops : list (fcall nat)),
    let c := frun (fun _ => "") ops (open_file empty_fdb) in
    stored (fseen c) "b" 1 = Some 1 /\ stored (fseen c) "a" 1 = Some 3 /\
    get_fingerprints (fun v => v) 0 ["b"; "a"] (Symbols ["p"]) c = Ok [[3]; [1]].
Proof. exists ex_fops. repeat split. Qed.

(** A single requested id always fails. *)
Theorem get_fingerprints_single_id_refuted {V} tt_ (zero : V) a p c :
  exists e, get_fingerprints tt_ zero [a] p c = Err e.
Proof. unfold get_fingerprints. destruct (select_params p (fseen c)); simpl; eauto. Qed.

(** A missing value is not reported: an image that has one of three requested
    values gets it in all three places, and rows after an image without values
    move up. *)
Theorem get_fingerprints_missing_value_refuted :
  exists (ops : list (fcall nat)),
    let c := frun (fun _ => "") ops (open_file empty_fdb) in
    stored (fseen c) "a" 2 = None /\ stored (fseen c) "b" 1 = None /\
    get_fingerprints (fun v => v) 0 ["a"; "b"; "c"] (Ids [1; 2]) c = Ok [[7; 7]; [5; 6]; [0; 0]].
Proof.
  exists [Image "a" 0; Image "b" 0; Image "c" 0; Param (Some "p") 0; Param (Some "q") 0;
          Entry "a" (ById 1) 7; Entry "c" (ById 1) 5; Entry "c" (ById 2) 6].
  repeat split.
Qed.

(** Which parameters a request names: an empty one all of the table, in table order; symbols
    the ids they were entered with, in the order of the request; and an unknown symbol an error. *)
Theorem requested_parameters {V} (d : fdb V) :
  (parameters d <> [] -> select_params (Symbols []) d = Ok (map fst (parameters d)) /\
                         select_params (Ids []) d = Ok (map fst (parameters d))) /\
  (parameters d = [] -> select_params (Symbols []) d = Err IndexError) /\
  (forall i l, select_params (Ids (i :: l)) d = Ok (i :: l)) /\
  (forall s l pids, select_params (Symbols (s :: l)) d = Ok pids ->
     Forall2 (fun i s => In (i, s) (parameters d)) pids (s :: l)) /\
  (forall l s, In s l -> ~ In s (map snd (parameters d)) -> select_params (Symbols l) d = Err AttributeError).
Proof.
  assert (FL : forall s n, lookup_fst s (parameters d) = Some n -> In (n, s) (parameters d)).
  { intros s n. unfold lookup_fst. destruct (find _ _) as [[i t]|] eqn:E; [|discriminate]. intros H; inversion H; subst.
    apply find_some in E. destruct E as [I E]. apply String.eqb_eq in E. simpl in *. subst; auto. }
  assert (FN : forall s, ~ In s (map snd (parameters d)) -> lookup_fst s (parameters d) = None).
  { intros s H. destruct (lookup_fst s (parameters d)) as [n|] eqn:E; auto. apply FL in E. exfalso. apply H.
    apply in_map_iff. exists (n, s). auto. }
  repeat split.
  - cbn. destruct (parameters d); [contradiction|auto].
  - cbn. destruct (parameters d); [contradiction|auto].
  - intros H. cbn. rewrite H. auto.
  - intros s l. cbn [select_params]. unfold get_parameters. generalize (s :: l). clear s l.
    induction l as [|s t IH]; cbn [map_result]; intros pids.
    + intros H; inversion H. constructor.
    + destruct (lookup_fst s (parameters d)) as [n|] eqn:E; cbn [bind]; [|discriminate].
      destruct (map_result _ t) as [r|e] eqn:E2; cbn [bind]; [|discriminate]. intros H; inversion H; subst. constructor; auto.
  - intros l s I H. destruct l as [|x t]; [contradiction|]. cbn [select_params]. unfold get_parameters.
    revert I. generalize (x :: t). clear x t. induction l as [|x t IH]; [intros []|intros [E|I]]; cbn [map_result].
    + subst x. rewrite (FN s H). reflexivity.
    + destruct (lookup_fst x (parameters d)); cbn [bind]; [|auto]. rewrite (IH I). reflexivity.
Qed.
Example requested_parameters_ex :
  let d := fseen (frun (fun _ => "") [Param (Some "p") 0; Param (Some "q") 0] (@open_file nat empty_fdb)) in
  select_params (Symbols []) d = Ok [1; 2] /\ select_params (Symbols ["q"; "p"]) d = Ok [2; 1] /\
  select_params (Symbols ["q"; "r"]) d = Err AttributeError.
Proof. repeat split. Qed.

(** The part that holds: at least two distinct ids, requested in increasing
    order, whose requested values are all present and were entered in the order
    of the parameters: row i holds the values of ids[i] in the order of params
    (up to the 15 digits of the text). *)
Theorem get_fingerprints_sorted_partial {V} tt_ (zero : V) ops ids p pids :
  let c := frun (fun _ => "") ops (open_file empty_fdb) in
  let d := fseen c in
  select_params p d = Ok pids ->
  2 <= length ids -> NoDup ids ->
  StronglySorted (fun x y => String.leb x y = true) ids ->
  pids <> [] ->
  (forall a, In a ids ->
     map (fun e => snd (fst e))
         (filter (fun e => match ase_of d (fst (fst e)) with
                           | Some b => String.eqb b a && existsb (Nat.eqb (snd (fst e))) pids
                           | None => false end) (fingerprints d)) = pids) ->
  exists rows, get_fingerprints tt_ zero ids p c = Ok rows /\
    Forall2 (fun a row => Forall2 (fun q x => exists v, stored d a q = Some v /\ x = tt_ v) pids row) ids rows.
Proof.
  intros c d SP L2 ND SS NE ALL.
  assert (W : fwf d) by (apply run_fwf, fwf_empty).
  unfold get_fingerprints. fold d. rewrite SP. cbn [bind].
  destruct ids as [|x1 [|x2 idt]] eqn:Eids; [simpl in L2; lia|simpl in L2; lia|]. rewrite <- Eids in *.
  clear x1 x2 idt Eids L2.
  (* values of one id *)
  set (ent := fun a => filter (fun e : nat * nat * V => match ase_of d (fst (fst e)) with
                           | Some b => String.eqb b a && existsb (Nat.eqb (snd (fst e))) pids
                           | None => false end) (fingerprints d)).
  assert (J : forall a, In a ids -> map (fun r => tt_ (snd r)) (filter (fun r => String.eqb (fst r) a) (joined d pids ids))
                         = map (fun e => tt_ (snd e)) (ent a)).
  { intros a Ha. unfold joined, ent. clear ALL. induction (fingerprints d) as [|e t IH]; simpl; auto.
    rewrite filter_app, map_app, IH.
    destruct (ase_of d (fst (fst e))) as [b|]; simpl; auto.
    destruct (String.eqb b a) eqn:E.
    - apply String.eqb_eq in E. subst b.
      assert (M : memb a ids = true) by (apply memb_In; auto). rewrite M, andb_true_r.
      destruct (existsb _ pids); simpl; rewrite ?String.eqb_refl; reflexivity.
    - destruct (existsb _ pids && memb b ids); simpl; rewrite ?E; reflexivity. }
  assert (MEM : forall a, In a (map fst (joined d pids ids)) <-> In a ids).
  { intros a. split.
    - unfold joined. intros H. apply in_map_iff in H. destruct H as [r [<- H]].
      apply in_flat_map in H. destruct H as [e [_ H]].
      destruct (ase_of d (fst (fst e))) as [b|]; [|destruct H].
      destruct (existsb _ pids && memb b ids) eqn:E; [|destruct H].
      apply andb_true_iff in E. destruct H as [<-|[]]. simpl. apply memb_In. tauto.
    - intros Ha. specialize (J a Ha). specialize (ALL a Ha). fold (ent a) in ALL.
      destruct (filter (fun r => String.eqb (fst r) a) (joined d pids ids)) as [|r t] eqn:E.
      + simpl in J. destruct (ent a); [simpl in ALL; congruence|discriminate].
      + assert (In r (r :: t)) as Hr by (left; auto). rewrite <- E in Hr.
        apply filter_In in Hr. destruct Hr as [Hr Er]. apply String.eqb_eq in Er. subst a.
        apply in_map; auto. }
  assert (K : isort String.leb (dedup (map fst (joined d pids ids))) = ids).
  { rewrite (isort_string_perm _ ids).
    - apply sorted_isort_id; exact SS.
    - apply NoDup_Permutation; auto using dedup_NoDup.
      intros a. rewrite dedup_In. apply MEM. }
  assert (LEN : forall a, In a ids -> length (map (fun e : nat * nat * V => tt_ (snd e)) (ent a)) = length pids).
  { intros a Ha. rewrite map_length. pose proof (f_equal (@length _) (ALL a Ha)) as Q.
    rewrite map_length in Q. exact Q. }
  unfold fill_matrix, groups. rewrite K.
  assert (MR : map_result (fun g => assign_row (length pids) (snd g))
     (map (fun a => (a, map (fun r => tt_ (snd r)) (filter (fun r => String.eqb (fst r) a) (joined d pids ids)))) ids)
     = Ok (map (fun a => map (fun e : nat * nat * V => tt_ (snd e)) (ent a)) ids)).
  { assert (Y : forall l, (forall a, In a l -> In a ids) ->
      map_result (fun g => assign_row (length pids) (snd g))
       (map (fun a => (a, map (fun r => tt_ (snd r)) (filter (fun r => String.eqb (fst r) a) (joined d pids ids)))) l)
       = Ok (map (fun a => map (fun e : nat * nat * V => tt_ (snd e)) (ent a)) l)).
    { induction l as [|a t IH]; intros Sub; [reflexivity|].
      simpl map at 1. unfold map_result; fold (@map_result (string * list V) (list V)).
      cbn [snd]. rewrite (J a) by (apply Sub; left; auto). unfold assign_row at 1.
      rewrite LEN by (apply Sub; left; auto). rewrite Nat.eqb_refl. cbn [bind].
      rewrite IH by (intros b Hb; apply Sub; right; auto). reflexivity. }
    apply Y; auto. }
  rewrite MR. cbn [bind]. eexists. split; [reflexivity|].
  rewrite map_length, Nat.sub_diag, app_nil_r.
  assert (G : forall a, In a ids -> Forall2 (fun q x => exists v, stored d a q = Some v /\ x = tt_ v) pids
                       (map (fun e : nat * nat * V => tt_ (snd e)) (ent a))).
  { intros a Ha. rewrite <- (ALL a Ha) at 1. fold (ent a).
    assert (Sub : forall e, In e (ent a) -> stored d a (snd (fst e)) = Some (snd e)).
    { intros e He. apply filter_In in He. destruct He as [He Hf].
      destruct (ase_of d (fst (fst e))) as [b|] eqn:B; [|discriminate].
      apply andb_true_iff in Hf. destruct Hf as [Hf _]. apply String.eqb_eq in Hf. subst b.
      apply stored_spec; auto. exists (fst (fst e)). split.
      - apply ase_of_iff; auto. apply W.
      - destruct e as [[i q] w]; auto. }
    revert Sub. generalize (ent a). induction l as [|e t IH]; intros Sub; simpl; constructor.
    - exists (snd e). split; auto. apply Sub. left; auto.
    - apply IH. intros e' He'. apply Sub. right; auto. }
  clear -G. induction ids as [|a t IH]; simpl; constructor.
  - apply G. left; auto.
  - apply IH. intros b Hb. apply G. right; auto.
Qed.

Example get_fingerprints_sorted_ex :
  let c := frun (fun _ => "") ex_fops (open_file empty_fdb) in
  select_params (Symbols []) (fseen c) = Ok [1; 2] /\
  get_fingerprints (fun v => v) 0 ["a"; "b"] (Symbols []) c = Ok [[3; 4]; [1; 2]] /\
  forall a, In a ["a"; "b"] ->
     map (fun e => snd (fst e))
         (filter (fun e => match ase_of (fseen c) (fst (fst e)) with
                           | Some b => String.eqb b a && existsb (Nat.eqb (snd (fst e))) [1; 2]
                           | None => false end) (fingerprints (fseen c))) = [1; 2].
Proof. repeat split. intros a [<-|[<-|[]]]; reflexivity. Qed.

(** ** C76.  "with FingerprintDB()": leaving the block, normally or by an
    exception, saves everything done before; a crash inside leaves the effect of
    a prefix of the block's calls that includes everything up to the last
    successful parameter_entry. *)
Theorem with_block_saves_all {V} (show_nat : nat -> string) (ops : list (fcall V)) file :
  exists k, k <= length ops /\
    fst (with_block show_nat ops file) = fseen (frun show_nat (firstn k ops) (open_file file)) /\
    match snd (with_block show_nat ops file) with
    | Ok _ => k = length ops
    | Err _ => 0 < k /\ snd (fstep show_nat (nth (k - 1) ops (Image "" 0))
                              (frun show_nat (firstn (k - 1) ops) (open_file file)))
                        = snd (with_block show_nat ops file)
    end.
Proof.
  unfold with_block. generalize (open_file file). clear file.
  assert (X : forall ops (c : fconn V), exists k, k <= length ops /\
    fst (body show_nat ops c) = frun show_nat (firstn k ops) c /\
    match snd (body show_nat ops c) with
    | Ok _ => k = length ops
    | Err _ => 0 < k /\ snd (fstep show_nat (nth (k - 1) ops (Image "" 0))
                              (frun show_nat (firstn (k - 1) ops) c)) = snd (body show_nat ops c)
    end).
  { clear ops. induction ops as [|op t IH]; intros c.
    - exists 0. simpl. auto.
    - cbn [body]. destruct (fstep show_nat op c) as [c' [u|e]] eqn:E.
      + destruct (IH c') as [k [K1 [K2 K3]]]. exists (S k). split; [simpl; lia|]. split.
        * cbn [firstn frun]. rewrite E. exact K2.
        * destruct (snd (body show_nat t c')); [simpl; lia|]. split; [lia|].
          destruct K3 as [K3 K4]. replace (S k - 1) with (S (k - 1)) by lia.
          cbn [nth firstn frun]. rewrite E. exact K4.
      + exists 1. split; [simpl; lia|]. cbn [firstn frun fst snd]. rewrite E. simpl. rewrite E.
        repeat split; auto. }
  intros c. destruct (X ops c) as [k [K1 [K2 K3]]]. exists k. split; auto.
  destruct (body show_nat ops c) as [c' r]. simpl in *. rewrite K2. auto.
Qed.

Theorem crash_keeps_prefix {V} (show_nat : nat -> string) (ops : list (fcall V)) file k :
  exists j, j <= k /\
    crash_after show_nat k ops file = fseen (fst (body show_nat (firstn j ops) (open_file file))) /\
    (forall i, j <= i < k -> i < length ops ->
       is_ok (snd (body show_nat (firstn k ops) (open_file file))) = true ->
       is_parameter (nth i ops (Image "" 0)) = false).
Proof.
  unfold crash_after.
  assert (X : forall ops (c : fconn V) base, fcommitted c = base ->
    exists j, j <= length ops /\
      (j = 0 /\ fcommitted (fst (body show_nat ops c)) = base \/
       fcommitted (fst (body show_nat ops c)) = fseen (fst (body show_nat (firstn j ops) c))) /\
      (forall i, j <= i < length ops -> is_ok (snd (body show_nat ops c)) = true ->
         is_parameter (nth i ops (Image "" 0)) = false)).
  { clear. induction ops as [|op t IH]; intros c base B.
    - exists 0. simpl. split; auto. split; auto. intros; lia.
    - cbn [body]. destruct (fstep show_nat op c) as [c' r] eqn:E.
      destruct r as [u|e].
      + destruct (IH c' (fcommitted c') eq_refl) as [j [J1 [J2 J3]]].
        destruct J2 as [[-> J2]|J2].
        * (* nothing committed after this call *)
          destruct (is_parameter op) eqn:P.
          -- exists 1. split; [simpl; lia|]. split.
             ++ right. cbn [firstn body]. rewrite E. cbn [fst]. rewrite J2.
                destruct op; try discriminate. cbn [fstep] in E. unfold parameter_entry in E.
                destruct symbol as [s|]; [destruct (String.eqb s "")|];
                  try (destruct (max_pid _); [|discriminate]); injection E as <- _; reflexivity.
             ++ intros i Hi OK. destruct i; [lia|]. simpl. apply J3; auto. simpl in Hi; lia.
          -- assert (CC : fcommitted c' = fcommitted c).
             { destruct op; try discriminate.
               - cbn [fstep] in E. injection E as <-. unfold image_entry.
                 destruct (lookup_fst _ _); reflexivity.
               - cbn [fstep] in E. unfold fingerprint_entry in E.
                 destruct (resolve _ _); [|discriminate]. destruct (lookup_fst _ _); [|discriminate].
                 destruct (has_entry _ _ _); injection E as <-; reflexivity. }
             exists 0. split; [lia|]. split.
             ++ left. split; auto. rewrite J2, CC. auto.
             ++ intros i Hi OK. destruct i; [simpl; auto|]. simpl. apply J3; auto. simpl in Hi; lia.
        * exists (S j). split; [simpl; lia|]. split.
          -- right. cbn [firstn body]. rewrite E. exact J2.
          -- intros i Hi OK. destruct i; [lia|]. simpl. apply J3; auto. simpl in Hi; lia.
      + assert (CC : fcommitted c' = fcommitted c).
        { destruct op.
          - cbn [fstep] in E. discriminate.
          - cbn [fstep] in E. unfold parameter_entry in E.
            destruct symbol as [s|]; [destruct (String.eqb s "")|];
              try (destruct (max_pid _)); try discriminate; injection E as <- _; reflexivity.
          - cbn [fstep] in E. unfold fingerprint_entry in E.
            destruct (resolve _ _); [|injection E as <- _; reflexivity].
            destruct (lookup_fst _ _); [|injection E as <- _; reflexivity].
            destruct (has_entry _ _ _); discriminate. }
        exists 0. split; [lia|]. split.
        * left. split; auto. simpl. congruence.
        * simpl. intros; discriminate. }
  destruct (X (firstn k ops) (open_file file) file eq_refl) as [j [J1 [J2 J3]]].
  assert (LE : length (firstn k ops) <= k) by (rewrite firstn_length; lia).
  exists j. split; [lia|]. split.
  - destruct J2 as [[J0 J2]|J2]; rewrite J2.
    + subst j. reflexivity.
    + rewrite firstn_firstn. replace (min j k) with j by lia. reflexivity.
  - intros i Hi Hl OK. rewrite firstn_length in J1. specialize (J3 i).
    assert (N : nth i (firstn k ops) (Image "" 0) = nth i ops (Image "" 0)).
    { clear -Hi. destruct Hi as [_ Hi]. revert i ops Hi. induction k as [|k IH]; [lia|].
      intros [|i] [|o t] Hi; simpl; auto. apply IH; lia. }
    rewrite <- N. apply J3; auto. rewrite firstn_length. lia.
Qed.

(** A crash loses the entries made after the last parameter_entry. *)
Example crash_keeps_prefix_ex :
  let file := crash_after (fun _ => "") 7 ex_fops empty_fdb in
  stored file "b" 1 = None /\ map snd (images file) = ["b"; "a"] /\ map snd (parameters file) = ["p"; "q"] /\
  stored (fst (with_block (fun _ => "") ex_fops empty_fdb)) "b" 1 = Some 1 /\
  snd (with_block (fun _ => "") ex_fops empty_fdb) = Err TypeError.
Proof. repeat split. Qed.

(** ** C77.  parameter_entry without a symbol.  Documented: "the symbol will be
    the ID of the parameter as a string".  It fails on an empty table, and when
    that text is already a symbol nothing is entered. *)
Theorem default_symbol_refuted {V} (show_nat : nat -> string) :
  snd (parameter_entry show_nat None 0 (@open_file V empty_fdb)) = Err TypeError /\
  (let c := frun show_nat [Param (Some (show_nat 2)) 0] (@open_file V empty_fdb) in
   show_nat 2 <> "" ->
   snd (parameter_entry show_nat None 0 c) = Ok tt /\
   parameters (fseen (fst (parameter_entry show_nat None 0 c))) = parameters (fseen c)).
Proof.
  split; [reflexivity|]. intros c NE.
  assert (E : c = insert_parameter (show_nat 2) 0 (open_file empty_fdb)).
  { unfold c. cbn [frun fstep fst]. unfold parameter_entry.
    apply String.eqb_neq in NE. rewrite NE. reflexivity. }
  rewrite E. split; [reflexivity|]. cbn. unfold insert_parameter, lookup_fst. cbn.
  rewrite String.eqb_refl. reflexivity.
Qed.

(** SELECT MAX(pid) of a table in which [m] is the largest id. *)
Lemma max_pid_largest l m : In m (map fst l) -> (forall i, In i (map fst l) -> i <= m) -> max_pid l = Some m.
Proof.
  assert (X : forall t a, (a <= m)%nat -> (forall i, In i (map fst t) -> i <= m) ->
     (a = m \/ In m (map fst t)) -> fold_left (fun k q => Nat.max k (@fst nat string q)) t a = m).
  { induction t as [|q t IH]; intros a La B [E|E]; simpl in *; auto; try tauto.
    - apply IH; auto. + specialize (B _ (or_introl eq_refl)). lia. + left. specialize (B _ (or_introl eq_refl)). lia.
    - pose proof (B _ (or_introl eq_refl)). apply IH; auto; [lia|]. destruct E as [E|E]; [left; lia|auto]. }
  intros I A. destruct l as [|p t]; simpl in *; [tauto|]. f_equal. apply X; auto.
Qed.

(** The part that holds: if the table is not empty, no id was skipped and the
    text is not taken, the new parameter has its own id as symbol. *)
Theorem default_symbol_partial {V} (show_nat : nat -> string) (c : fconn V) m g :
  In m (map fst (parameters (fseen c))) -> (forall i, In i (map fst (parameters (fseen c))) -> i <= m) ->
  next_pid (fseen c) = S m ->
  lookup_fst (show_nat (S m)) (parameters (fseen c)) = None ->
  parameters (fseen (fst (parameter_entry show_nat None g c))) =
    (parameters (fseen c) ++ [(S m, show_nat (S m))])%list.
Proof.
  intros I A N L. pose proof (@max_pid_largest _ _ I A) as M. unfold parameter_entry. rewrite M. cbn [fst]. unfold insert_parameter.
  rewrite L. simpl. rewrite N. reflexivity.
Qed.

Example default_symbol_ex :
  let sh := fun n => if Nat.eqb n 3 then "3" else "?" in
  parameters (fseen (frun sh [Param (Some "p") 0; Param (Some "q") 0; Param None 0]
                          (@open_file nat empty_fdb))) = [(1, "p"); (2, "q"); (3, "3")].
Proof. reflexivity. Qed.

Print Assumptions query_after_any_history.
Print Assumptions columns_after_any_history.
Print Assumptions update_changes_no_other_cell.
Print Assumptions fill_in_table_order_partial.
Print Assumptions successful_calls_survive_crash.
Print Assumptions fingerprint_is_first_written.
Print Assumptions stored_value_is_final.
Print Assumptions get_fingerprints_ignores_request_order.
Print Assumptions get_fingerprints_sorted_partial.
Print Assumptions with_block_saves_all.
Print Assumptions crash_keeps_prefix.
Print Assumptions requested_parameters.
