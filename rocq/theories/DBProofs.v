(** Supporting lemmas for DBProperties.v. *)
From Coq Require Import String Ascii NArith List Arith Bool Lia Permutation Sorting.Sorted.
From Verif Require Import Base BaseFacts DBModel DBSpec.
Import ListNotations.

(** ** Small facts *)
Lemma memb_In s l : memb s l = true <-> In s l.
Proof.
  unfold memb. rewrite existsb_exists. split.
  - intros [x [H E]]. apply String.eqb_eq in E. subst; auto.
  - intros H. exists s. split; auto. apply String.eqb_refl.
Qed.

Lemma memb_false s l : memb s l = false <-> ~ In s l.
Proof. rewrite <- memb_In. destruct (memb s l); split; congruence. Qed.

Lemma nodupb_NoDup l : nodupb l = true <-> NoDup l.
Proof.
  induction l as [|x t IH]; simpl; [split; auto using NoDup_nil|].
  rewrite andb_true_iff, negb_true_iff, memb_false, IH.
  split; [intros [H1 H2]; constructor; auto|inversion 1; auto].
Qed.

Lemma col_index_Some name cols i :
  col_index name cols = Some i -> i < length cols /\ nth i cols ""%string = name.
Proof.
  revert i. induction cols as [|c t IH]; simpl; [discriminate|]. intros i.
  destruct (String.eqb name c) eqn:E.
  - intros [= <-]. apply String.eqb_eq in E. simpl. split; [lia|auto].
  - destruct (col_index name t) as [j|]; [|discriminate]. intros [= <-].
    destruct (IH j eq_refl). simpl. split; [lia|auto].
Qed.

Lemma col_index_None name cols : col_index name cols = None <-> ~ In name cols.
Proof.
  induction cols as [|c t IH]; simpl; [tauto|].
  destruct (String.eqb name c) eqn:E.
  - apply String.eqb_eq in E. subst. split; [discriminate|]. intros H; exfalso; apply H; auto.
  - apply String.eqb_neq in E. destruct (col_index name t).
    + split; [discriminate|]. intros H. exfalso. apply H. right.
      destruct (in_dec string_dec name t) as [|N]; auto. apply IH in N. discriminate.
    + split; auto. intros _ [->|H]; [congruence|]. apply IH in H; auto.
Qed.

(** In [find (fun p => fst p = name)] over [combine cols row]. *)
Lemma assoc_nth {V} name cols (row : list (option V)) i :
  length row = length cols -> col_index name cols = Some i ->
  assoc name (combine cols row) = nth i row None.
Proof.
  unfold assoc. revert row i. induction cols as [|c t IH]; simpl; [discriminate|].
  intros [|x row] i; simpl; [discriminate|]. intros L.
  rewrite (String.eqb_sym name c). destruct (String.eqb c name) eqn:E.
  - intros [= <-]. reflexivity.
  - destruct (col_index name t) as [j|] eqn:C; [|discriminate]. intros [= <-]. simpl.
    apply IH; auto.
Qed.

Lemma assoc_absent {V} name cols (row : list (option V)) :
  ~ In name cols -> assoc name (combine cols row) = None.
Proof.
  unfold assoc. revert row. induction cols as [|c t IH]; simpl; auto.
  intros [|x row] N; simpl; auto.
  destruct (String.eqb c name) eqn:E.
  - apply String.eqb_eq in E. subst. exfalso. apply N; auto.
  - apply IH. tauto.
Qed.

Lemma assoc_app_last {V} name cols (row : list (option V)) n :
  length row = length cols -> ~ In n cols ->
  assoc name (combine (cols ++ [n]) (row ++ [None])) = assoc name (combine cols row).
Proof.
  unfold assoc. revert row. induction cols as [|c t IH]; intros [|x row] L N; simpl in *; try discriminate.
  - destruct (String.eqb n name); auto.
  - destruct (String.eqb c name); auto. 
Qed.

Lemma assoc_set_nth {V} name n i cols (row : list (option V)) v :
  length row = length cols -> NoDup cols -> col_index n cols = Some i ->
  assoc name (combine cols (set_nth i v row)) =
  if String.eqb n name then v else assoc name (combine cols row).
Proof.
  unfold assoc. revert row i. induction cols as [|c t IH]; intros [|x row] i L ND C; simpl in *; try discriminate.
  inversion ND as [|? ? N1 N2]; subst.
  destruct (String.eqb n c) eqn:E.
  - injection C as <-. apply String.eqb_eq in E. subst c. simpl.
    destruct (String.eqb n name); auto.
  - destruct (col_index n t) as [j|] eqn:C'; [|discriminate]. injection C as <-. simpl.
    destruct (String.eqb c name) eqn:E2.
    + apply String.eqb_eq in E2. subst c. rewrite E. reflexivity.
    + apply IH; auto.
Qed.

Lemma find_app {A} (f : A -> bool) l1 l2 :
  find f (l1 ++ l2) = match find f l1 with Some x => Some x | None => find f l2 end.
Proof. induction l1 as [|x t IH]; simpl; auto. destruct (f x); auto. Qed.

Lemma find_map {A B} (f : B -> bool) (g : A -> B) l :
  find f (map g l) = match find (fun x => f (g x)) l with Some x => Some (g x) | None => None end.
Proof. induction l as [|x t IH]; simpl; auto. destruct (f (g x)); auto. Qed.

Lemma find_ext_in {A} (f g : A -> bool) l :
  (forall x, In x l -> f x = g x) -> find f l = find g l.
Proof.
  induction l as [|x t IH]; simpl; intros H; auto.
  rewrite (H x) by auto. destruct (g x); auto.
Qed.

Lemma find_filter_hd {A} (f : A -> bool) l :
  find f l = match filter f l with [] => None | x :: _ => Some x end.
Proof. induction l as [|x t IH]; simpl; auto. destruct (f x); auto. Qed.

(** ** Descriptor database: the invariant *)
Section Descriptor.
Context {V : Type} (show : V -> string).
Notation row := (string * list (option V))%type.

Definition row_value (id name : string) (t : table V) : option (option V) :=
  match find (fun r => String.eqb (fst r) id) (t_rows t) with
  | Some r => Some (assoc name (combine (t_cols t) (snd r)))
  | None => None
  end.

Definition well_formed (t : table V) : Prop :=
  NoDup ("uuid"%string :: t_cols t) /\ Forall (fun r : row => length (snd r) = length (t_cols t)) (t_rows t).

Lemma add_column_wf n t :
  well_formed t -> ~ In n ("uuid"%string :: t_cols t) -> well_formed (add_column n t).
Proof.
  intros [ND F] N. split; simpl.
  - rewrite app_comm_cons. apply NoDup_app_intro; auto.
    + constructor; [intros []|constructor].
    + intros x Hx [<-|[]]. auto.
  - rewrite Forall_map. eapply Forall_impl; [|exact F]. intros r L. simpl.
    rewrite !app_length, L. reflexivity.
Qed.

Lemma add_column_value id name n t :
  well_formed t -> ~ In n ("uuid"%string :: t_cols t) ->
  row_value id name (add_column n t) = row_value id name t.
Proof.
  intros [ND F] N. unfold row_value, add_column. cbn [t_rows t_cols].
  rewrite find_map. simpl.
  destruct (find (fun r => String.eqb (fst r) id) (t_rows t)) as [r|] eqn:E; auto.
  simpl. f_equal. apply assoc_app_last.
  - apply find_some in E. rewrite Forall_forall in F. apply F; tauto.
  - intros H; apply N; right; auto.
Qed.

Lemma insert_rows_spec w data (t : table V) :
  fst (insert_rows w data t) = mkTable (t_cols t) (t_rows t ++ accepted_rows w data).
Proof.
  revert t. induction data as [|r rest IH]; intros t; simpl.
  - rewrite app_nil_r. destruct t; reflexivity.
  - destruct (length (snd r) =? w); simpl.
    + rewrite IH. simpl. rewrite <- app_assoc. reflexivity.
    + rewrite app_nil_r. destruct t; reflexivity.
Qed.

Lemma accepted_rows_width w (data : list row) : Forall (fun r => length (snd r) = w) (accepted_rows w data).
Proof.
  induction data as [|r t IH]; simpl; auto.
  destruct (length (snd r) =? w) eqn:E; auto. constructor; auto. apply Nat.eqb_eq; auto.
Qed.

(** What the whole table says agrees with the per cell specification. *)
Definition agrees (c : conn V) (st : option (list string)) : Prop :=
  match seen c, st with
  | None, None => True
  | Some t, Some cols => t_cols t = cols /\ well_formed t
  | _, _ => False
  end.

Definition cell_agrees (id name : string) (c : conn V) (cellv : option (option V)) : Prop :=
  match seen c with None => cellv = None | Some t => cellv = row_value id name t end.

Lemma create_column_step names c st :
  agrees c st ->
  agrees (fst (create_column names c)) (spec_cols (V:=V) st (CreateColumn names)) /\
  (forall id name cellv, cell_agrees id name c cellv ->
     cell_agrees id name (fst (create_column names c)) cellv).
Proof.
  revert c st. induction names as [|n rest IH]; intros c st A.
  - simpl. unfold agrees in *. split; auto. destruct st; auto.
  - cbn [create_column]. destruct (seen c) as [t|] eqn:E.
    + unfold agrees in A. rewrite E in A. destruct st as [cols|]; [|tauto]. destruct A as [<- W].
      cbn [spec_cols accepted_columns].
      destruct (memb n ("uuid"%string :: t_cols t)) eqn:M.
      * cbn [fst]. unfold agrees. rewrite E. auto.
      * assert (N : ~ In n ("uuid"%string :: t_cols t)) by (apply memb_false; auto).
        edestruct (IH (commit (mkConn (Some (add_column n t)) (committed c)))
                      (Some (t_cols t ++ [n]))) as [I1 I2].
        { simpl. split; auto. apply add_column_wf; auto. }
        split; [exact I1|]. intros id name cellv H. apply I2.
        unfold cell_agrees in *. rewrite E in H. simpl. rewrite H.
        symmetry. apply add_column_value; auto.
    + cbn [fst]. unfold agrees in A. rewrite E in A. destruct st; [tauto|].
      unfold agrees. rewrite E. simpl. auto.
Qed.

Lemma step_agrees op c st id name cellv :
  no_uuid_update op -> agrees c st -> cell_agrees id name c cellv ->
  agrees (fst (dstep show op c)) (spec_cols st op) /\
  cell_agrees id name (fst (dstep show op c)) (spec_cell id name st cellv op).
Proof.
  intros NU A C. destruct op as [names|names|names data|n v i].
  - (* create_db *)
    cbn [dstep]. unfold create_db, agrees, cell_agrees in *.
    destruct (seen c) as [t|] eqn:E; destruct st as [cols|]; try tauto; cbn [fst spec_cols spec_cell].
    + rewrite E. auto.
    + cbn [fst]. destruct (nodupb ("uuid"%string :: names)) eqn:D; cbn [fst seen commit].
      * split.
        -- split; [reflexivity|]. split; [apply nodupb_NoDup; exact D|constructor].
        -- rewrite C. reflexivity.
      * rewrite E. auto.
  - (* create_column *)
    cbn [dstep]. destruct (create_column_step names c st A) as [H1 H2].
    split; [exact H1|]. apply H2 in C. exact C.
  - (* fill_db *)
    cbn [dstep]. unfold fill_db, agrees, cell_agrees in *.
    destruct (seen c) as [t|] eqn:E; destruct st as [cols|]; try tauto.
    + destruct A as [<- [ND F]]. cbn [spec_cols spec_cell].
      destruct (length names =? length (t_cols t)) eqn:L.
      * pose proof (insert_rows_spec (length names) data t) as I.
        apply Nat.eqb_eq in L.
        assert (S : forall o : conn V * result unit,
          seen (fst o) = Some (mkTable (t_cols t) (t_rows t ++ accepted_rows (length names) data)) ->
          match seen (fst o) with
          | Some t0 => t_cols t0 = t_cols t /\ well_formed t0
          | None => False
          end /\
          match seen (fst o) with
          | Some t0 => match cellv with
                       | Some _ => cellv
                       | None => match find (fun r => String.eqb (fst r) id) (accepted_rows (length names) data) with
                                 | Some r => Some (assoc name (combine (t_cols t) (snd r)))
                                 | None => None
                                 end
                       end = row_value id name t0
          | None => match cellv with
                       | Some _ => cellv
                       | None => match find (fun r => String.eqb (fst r) id) (accepted_rows (length names) data) with
                                 | Some r => Some (assoc name (combine (t_cols t) (snd r)))
                                 | None => None
                                 end
                       end = None
          end).
        { intros o ->. split.
          - split; [reflexivity|]. split; [exact ND|]. simpl. apply Forall_app. split; auto.
            rewrite <- L. apply accepted_rows_width.
          - subst cellv. unfold row_value. cbn [t_rows t_cols]. rewrite find_app.
            destruct (find (fun r => String.eqb (fst r) id) (t_rows t)); auto. }
        destruct (insert_rows (length names) data t) as [t' [u|e]]; cbn [fst] in I; subst t';
          destruct cellv; apply (S (_, _)); reflexivity.
      * cbn [fst]. rewrite E. subst cellv. split; [split; [auto|split; auto]|].
        destruct (row_value id name t); reflexivity.
    + cbn [fst]. rewrite E. subst cellv. simpl. auto.
  - (* update_descriptor *)
    cbn [dstep]. unfold update_descriptor, agrees, cell_agrees in *.
    destruct (seen c) as [t|] eqn:E; destruct st as [cols|]; try tauto.
    + destruct A as [<- [ND F]]. cbn [spec_cols spec_cell].
      simpl in NU. apply String.eqb_neq in NU. rewrite NU.
      destruct (col_index n (t_cols t)) as [j|] eqn:CI.
      * cbn [fst seen commit t_cols]. split.
        -- split; [reflexivity|]. split; [exact ND|]. simpl. rewrite Forall_map.
           eapply Forall_impl; [|exact F]. intros r Hr. unfold update_row.
           destruct (String.eqb (fst r) i); simpl; rewrite ?set_nth_length; auto.
        -- subst cellv. unfold row_value. cbn [t_rows t_cols]. rewrite find_map.
           rewrite (@find_ext_in _ (fun r => String.eqb (fst (update_row j (Some v) i r)) id) (fun r => String.eqb (fst r) id))
             by (intros r _; unfold update_row; destruct (String.eqb (fst r) i); reflexivity).
           destruct (find (fun r => String.eqb (fst r) id) (t_rows t)) as [r|] eqn:Fd; auto.
           apply find_some in Fd. destruct Fd as [Fin Fid]. apply String.eqb_eq in Fid.
           unfold update_row. rewrite Fid, (String.eqb_sym id i).
           rewrite Forall_forall in F.
           destruct (String.eqb n name) eqn:En; cbn [andb].
           ++ apply String.eqb_eq in En. subst n.
              destruct (String.eqb i id) eqn:Ei; cbn [andb snd].
              ** rewrite (@assoc_set_nth V name name) by (auto; inversion ND; auto).
                 rewrite String.eqb_refl.
                 destruct (memb name (t_cols t)) eqn:M; auto.
                 apply memb_false in M. apply col_index_None in M. congruence.
              ** reflexivity.
           ++ destruct (String.eqb i id) eqn:Ei; cbn [snd]; auto.
              rewrite (@assoc_set_nth V name n) by (auto; inversion ND; auto).
              rewrite En. reflexivity.
      * cbn [fst]. rewrite E. split; [split; [auto|split; auto]|]. subst cellv.
        destruct (row_value id name t); auto.
        destruct (String.eqb n name) eqn:En; cbn [andb]; auto.
        apply String.eqb_eq in En. subst n.
        apply col_index_None in CI. apply memb_false in CI. rewrite CI, andb_false_r. reflexivity.
    + cbn [fst]. rewrite E. subst cellv. simpl. auto.
Qed.

Lemma run_agrees ops c st id name cellv :
  Forall no_uuid_update ops -> agrees c st -> cell_agrees id name c cellv ->
  agrees (drun show ops c) (fst (spec_run id name ops st cellv)) /\
  cell_agrees id name (drun show ops c) (snd (spec_run id name ops st cellv)).
Proof.
  revert c st cellv. induction ops as [|op t IH]; intros c st cellv F A C; simpl; auto.
  inversion F; subst.
  destruct (step_agrees op c st id name cellv) as [A' C']; auto.
Qed.

Lemma spec_run_cols id name (ops : list (dcall V)) st cellv :
  fst (spec_run id name ops st cellv) = fold_left spec_cols ops st.
Proof. revert st cellv. induction ops as [|op t IH]; intros; simpl; auto. Qed.

Lemma fresh_run_agrees ops id name :
  Forall no_uuid_update ops ->
  agrees (drun show ops fresh) (spec_columns ops) /\
  cell_agrees id name (drun show ops fresh) (spec_value ops id name).
Proof.
  intros F. unfold spec_columns, spec_value. rewrite <- (spec_run_cols id name ops None None).
  apply run_agrees; simpl; auto; unfold agrees, cell_agrees; simpl; auto.
Qed.

Lemma map_result_ok {A B} (f : A -> result B) (g : A -> B) l :
  (forall x, In x l -> f x = Ok (g x)) -> map_result f l = Ok (map g l).
Proof.
  induction l as [|x t IH]; simpl; intros H; auto.
  rewrite (H x) by auto. simpl. rewrite IH by auto. reflexivity.
Qed.

Lemma select_row_ok t (r : row) names :
  well_formed t -> length (snd r) = length (t_cols t) ->
  (forall n, In n names -> In n (t_cols t)) ->
  map_result (select_cell (t_cols t) r) names =
  Ok (map (fun n => cell_of (assoc n (combine (t_cols t) (snd r)))) names).
Proof.
  intros [ND F] L H. apply map_result_ok. intros n Hn. unfold select_cell.
  assert (n <> "uuid"%string) as NU.
  { intros ->. inversion ND; subst. auto. }
  apply String.eqb_neq in NU. rewrite NU.
  destruct (col_index n (t_cols t)) as [i|] eqn:E.
  - rewrite (@assoc_nth V n (t_cols t) (snd r) i) by auto. reflexivity.
  - apply col_index_None in E. exfalso; auto.
Qed.

Lemma query_id_value c t id names :
  seen c = Some t -> well_formed t -> names <> [] -> (forall n, In n names -> In n (t_cols t)) ->
  query_id c id (Some names) =
  match find (fun r : row => String.eqb (fst r) id) (t_rows t) with
  | None => Err IndexError
  | Some r => Ok (map (fun n => cell_of (assoc n (combine (t_cols t) (snd r)))) names)
  end.
Proof.
  intros E W NE H. unfold query_id. rewrite E.
  destruct names as [|n0 nt] eqn:En; [congruence|]. rewrite <- En in *. clear n0 nt En.
  assert (Q : query_names t (Some names) = Ok names) by (destruct names; [congruence|reflexivity]).
  rewrite Q. cbn [bind]. unfold select.
  assert (FA : forallb (fun n => memb n ("uuid"%string :: t_cols t)) names = true).
  { apply forallb_forall. intros n Hn. apply memb_In. right; auto. }
  rewrite FA. rewrite find_filter_hd.
  rewrite (@map_result_ok _ _ _ (fun r : row => map (fun n => cell_of (assoc n (combine (t_cols t) (snd r)))) names)).
  - cbn [bind]. destruct (filter _ (t_rows t)); reflexivity.
  - intros r Hr. apply select_row_ok; auto. apply filter_In in Hr.
    destruct W as [_ F]. rewrite Forall_forall in F. apply F; tauto.
Qed.
(** ** Durability *)
Lemma create_column_durable names (c : conn V) :
  seen c = committed c -> seen (fst (create_column names c)) = committed (fst (create_column names c)).
Proof.
  revert c. induction names as [|n t IH]; intros c H; simpl; auto.
  destruct (seen c) eqn:E; [|simpl; congruence].
  destruct (_ || _); [simpl; congruence|]. apply IH. reflexivity.
Qed.

Lemma step_durable op (c : conn V) :
  seen c = committed c -> snd (dstep show op c) = Ok tt ->
  seen (fst (dstep show op c)) = committed (fst (dstep show op c)).
Proof.
  intros H R. destruct op as [names|names|names data|n v i]; simpl in *.
  - unfold create_db in *. destruct (seen c) eqn:E; simpl; [congruence|].
    destruct (_ && _); simpl; congruence.
  - apply create_column_durable; auto.
  - unfold fill_db in *. destruct (seen c) eqn:E; simpl; [|congruence].
    destruct (length names =? length (t_cols t)); simpl; [|congruence].
    destruct (insert_rows (length names) data t) as [t' [u|e]]; simpl in *; congruence.
  - unfold update_descriptor in *. destruct (seen c) eqn:E; simpl; [|congruence].
    destruct (String.eqb n "uuid"); simpl; auto.
    destruct (col_index n (t_cols t)); simpl; auto. congruence.
Qed.
End Descriptor.

(** ** Fingerprint database *)
Section Fingerprint.
Context {V : Type} (show_nat : nat -> string).

(** Ids are unique and below the counter. *)
Definition keyed (l : list (nat * string)) (next : nat) : Prop :=
  NoDup (map fst l) /\ NoDup (map snd l) /\ Forall (fun p => fst p < next) l.

Definition fwf (d : fdb V) : Prop :=
  keyed (images d) (next_iid d) /\ keyed (parameters d) (next_pid d) /\
  Forall (fun e => In (fst (fst e)) (map fst (images d))) (fingerprints d) /\
  NoDup (map fst (fingerprints d)).

Lemma lookup_fst_Some s l n : lookup_fst s l = Some n -> In (n, s) l.
Proof.
  unfold lookup_fst. destruct (find _ l) as [p|] eqn:E; [|discriminate].
  intros [= <-]. apply find_some in E. destruct E as [H E]. apply String.eqb_eq in E.
  subst s. destruct p; auto.
Qed.

Lemma lookup_fst_None s l : lookup_fst s l = None <-> ~ In s (map snd l).
Proof.
  unfold lookup_fst. destruct (find _ l) as [p|] eqn:E.
  - split; [discriminate|]. intros N. exfalso. apply N. apply find_some in E.
    destruct E as [H E]. apply String.eqb_eq in E. subst s. apply in_map; auto.
  - split; auto. intros _ H. apply in_map_iff in H. destruct H as [p [<- Hp]].
    apply (find_none _ _ E) in Hp. rewrite String.eqb_refl in Hp. discriminate.
Qed.

Lemma keyed_grow l next gap : keyed l next -> keyed l (next + gap).
Proof.
  intros [A [B C]]. split; [|split]; auto. eapply Forall_impl; [|exact C]. simpl; intros; lia.
Qed.

Lemma keyed_add l next s : keyed l next -> lookup_fst s l = None -> keyed (l ++ [(next, s)]) (S next).
Proof.
  intros [A [B C]] N. apply lookup_fst_None in N. split; [|split].
  - rewrite map_app. apply NoDup_app_intro; auto.
    + repeat constructor. intros [].
    + simpl. intros x Hx [<-|[]]. apply in_map_iff in Hx. destruct Hx as [p [<- Hp]].
      rewrite Forall_forall in C. apply C in Hp. lia.
  - rewrite map_app. apply NoDup_app_intro; auto.
    + repeat constructor. intros [].
    + simpl. intros x Hx [<-|[]]. auto.
  - apply Forall_app. split.
    + eapply Forall_impl; [|exact C]. simpl; intros; lia.
    + repeat constructor.
Qed.

Lemma lookup_fst_app s l x : lookup_fst s l <> None -> lookup_fst s (l ++ [x]) = lookup_fst s l.
Proof.
  unfold lookup_fst. rewrite find_app. destruct (find _ l); auto. congruence.
Qed.

Lemma ase_of_iff (d : fdb V) i a : keyed (images d) (next_iid d) -> ase_of d i = Some a <-> In (i, a) (images d).
Proof.
  intros [A [B C]]. unfold ase_of. destruct (find _ (images d)) as [p|] eqn:E.
  - apply find_some in E. destruct E as [Hp Ei]. apply Nat.eqb_eq in Ei. split.
    + intros [= <-]. subst i. destruct p; auto.
    + intros H. f_equal.
      assert (X : forall (l : list (nat * string)) x y, NoDup (map fst l) -> In x l -> In y l -> fst x = fst y -> x = y).
      { clear. induction l as [|z t IH]; simpl; [tauto|]. intros x y ND Hx Hy E.
        inversion ND; subst. destruct Hx as [->|Hx], Hy as [->|Hy]; auto.
        - exfalso. apply H1. rewrite E. apply in_map; auto.
        - exfalso. apply H1. rewrite <- E. apply in_map; auto. }
      rewrite (X _ p (i, a) A Hp H); auto.
  - split; [discriminate|]. intros H. apply (find_none _ _ E) in H. simpl in H.
    rewrite Nat.eqb_refl in H. discriminate.
Qed.

Lemma keyed_snd_inj l n (x y : nat * string) : keyed l n -> In x l -> In y l -> snd x = snd y -> x = y.
Proof.
  intros [_ [B _]]. revert B. clear. induction l as [|z t IH]; simpl; [tauto|].
  intros ND Hx Hy E. inversion ND; subst. destruct Hx as [->|Hx], Hy as [->|Hy]; auto.
  - exfalso. apply H1. rewrite E. apply in_map; auto.
  - exfalso. apply H1. rewrite <- E. apply in_map; auto.
Qed.

Lemma fwf_empty : fwf (@empty_fdb V).
Proof.
  repeat split; simpl; repeat constructor.
Qed.

Lemma has_entry_In i p (l : list (nat * nat * V)) : has_entry i p l = true <-> In (i, p) (map fst l).
Proof.
  unfold has_entry. rewrite existsb_exists, in_map_iff. split.
  - intros [e [H E]]. apply andb_true_iff in E. destruct E as [E1 E2].
    apply Nat.eqb_eq in E1, E2. exists e. split; auto. rewrite <- E1, <- E2.
    destruct (fst e); auto.
  - intros [e [E H]]. exists e. split; auto. rewrite E. simpl. rewrite !Nat.eqb_refl. auto.
Qed.

Lemma step_fwf op (c : fconn V) : fwf (fseen c) -> fwf (fseen (fst (fstep show_nat op c))).
Proof.
  intros [KI [KP [F ND]]]. destruct op as [a g|s g|a p v].
  - cbn [fstep fst]. unfold image_entry.
    destruct (lookup_fst a (images (fseen c))) as [i|] eqn:E; cbn [fseen].
    + split; [|split; [|split]]; simpl; auto. apply keyed_grow; auto.
    + split; [|split; [|split]]; simpl; auto.
      * apply keyed_add; auto.
      * eapply Forall_impl; [|exact F]. intros e He. rewrite map_app, in_app_iff. auto.
  - cbn [fstep]. 
    assert (X : forall s, fwf (fseen (insert_parameter s g c))).
    { intros s'. unfold insert_parameter.
      destruct (lookup_fst s' (parameters (fseen c))) as [i|] eqn:E; cbn [fseen];
        (split; [|split; [|split]]); simpl; auto.
      - apply keyed_grow; auto.
      - apply keyed_add; auto. }
    assert (Y : fwf (fseen c)) by (repeat split; auto; try apply KI; try apply KP).
    unfold parameter_entry. destruct s as [s|].
    + destruct (String.eqb s "").
      * destruct (max_pid _); cbn [fst]; auto.
      * cbn [fst]; auto.
    + destruct (max_pid _); cbn [fst]; auto.
  - cbn [fstep]. unfold fingerprint_entry.
    destruct (resolve p (fseen c)) as [pid|e]; [|split; [|split; [|split]]; auto].
    destruct (lookup_fst a (images (fseen c))) as [i|] eqn:E; [|split; [|split; [|split]]; auto].
    destruct (has_entry i pid (fingerprints (fseen c))) eqn:HE; [split; [|split; [|split]]; auto|].
    cbn [fst fseen]. split; [|split; [|split]]; simpl; auto.
    + apply Forall_app. split; auto. repeat constructor. simpl.
      apply lookup_fst_Some in E. change i with (fst (i, a)). apply in_map; auto.
    + rewrite map_app. apply NoDup_app_intro; auto.
      * repeat constructor. intros [].
      * simpl. intros x Hx [<-|[]]. apply has_entry_In in Hx. congruence.
Qed.

Lemma run_fwf ops (c : fconn V) : fwf (fseen c) -> fwf (fseen (frun show_nat ops c)).
Proof.
  revert c. induction ops as [|op t IH]; intros c H; simpl; auto. apply IH. apply step_fwf; auto.
Qed.

(** Reading a pair through the image table. *)
Lemma stored_spec (d : fdb V) a pid v :
  fwf d -> stored d a pid = Some v <->
  exists i, In (i, a) (images d) /\ In (i, pid, v) (fingerprints d).
Proof.
  intros [KI [KP [F ND]]]. unfold stored.
  set (f := fun e : nat * nat * V => (snd (fst e) =? pid) && _).
  assert (FE : forall e, f e = true <-> snd (fst e) = pid /\ In (fst (fst e), a) (images d)).
  { intros e. unfold f. rewrite andb_true_iff, Nat.eqb_eq.
    rewrite <- (ase_of_iff d (fst (fst e)) a KI).
    destruct (ase_of d (fst (fst e))) as [b|]; [rewrite String.eqb_eq|];
      intuition congruence. }
  split.
  - destruct (find f (fingerprints d)) as [e|] eqn:E; [|discriminate]. intros [= <-].
    apply find_some in E. destruct E as [H E]. apply FE in E. destruct E as [E1 E2].
    exists (fst (fst e)). split; auto. destruct e as [[i p] w]. simpl in *. subst; auto.
  - intros [i [Hi He]]. destruct (find f (fingerprints d)) as [e|] eqn:E.
    + apply find_some in E. destruct E as [H E]. apply FE in E. destruct E as [E1 E2].
      pose proof (@keyed_snd_inj _ _ (fst (fst e), a) (i, a) KI E2 Hi eq_refl) as X.
      injection X as X. f_equal.
      assert (U : forall (l : list (nat * nat * V)) x y, NoDup (map fst l) -> In x l -> In y l -> fst x = fst y -> x = y).
      { clear. induction l as [|z t IH]; simpl; [tauto|]. intros x y ND Hx Hy E.
        inversion ND; subst. destruct Hx as [->|Hx], Hy as [->|Hy]; auto.
        - exfalso. apply H1. rewrite E. apply in_map; auto.
        - exfalso. apply H1. rewrite <- E. apply in_map; auto. }
      rewrite (U _ e (i, pid, v) ND H He); auto.
      destruct e as [[i' p'] w]. simpl in *. subst; auto.
    + apply (find_none _ _ E) in He. exfalso.
      assert (f (i, pid, v) = true) by (apply FE; auto). congruence.
Qed.

Lemma option_ext {A} (x y : option A) : (forall v, x = Some v <-> y = Some v) -> x = y.
Proof.
  destruct x as [x|], y as [y|]; intros H; auto.
  - apply H; auto.
  - exfalso. specialize (H x). intuition congruence.
  - exfalso. specialize (H y). intuition congruence.
Qed.

(** Effect of one call on the stored values. *)
Lemma step_stored op (c : fconn V) a pid :
  fwf (fseen c) ->
  stored (fseen (fst (fstep show_nat op c))) a pid =
  match stored (fseen c) a pid with
  | Some v => Some v
  | None => match op, snd (fstep show_nat op c) with
            | Entry b p v, Ok _ =>
                match resolve p (fseen c) with
                | Ok n => if String.eqb b a && (n =? pid) then Some v else None
                | Err _ => None
                end
            | _, _ => None
            end
  end.
Proof.
  intros W. pose proof (step_fwf op c W) as W'.
  assert (Wc := W). destruct W as [KI [KP [F ND]]].
  destruct op as [b g|s g|b p v].
  - replace (match stored (fseen c) a pid with Some v => Some v | None => _ end) with (stored (fseen c) a pid)
      by (destruct (stored (fseen c) a pid); reflexivity).
    apply option_ext. intros w. rewrite !stored_spec by auto.
    cbn [fstep fst]. unfold image_entry.
    destruct (lookup_fst b (images (fseen c))) as [i|] eqn:E; cbn [fseen images fingerprints]; [tauto|].
    split.
    + intros [i [Hi He]]. exists i. split; auto. apply in_app_iff in Hi.
      destruct Hi as [Hi|[[= <- <-]|[]]]; auto.
      exfalso. rewrite Forall_forall in F. apply F in He. simpl in He.
      apply in_map_iff in He. destruct He as [q [Eq Hq]].
      destruct KI as [_ [_ C]]. rewrite Forall_forall in C. apply C in Hq. lia.
    + intros [i [Hi He]]. exists i. rewrite in_app_iff. auto.
  - replace (match stored (fseen c) a pid with Some v => Some v | None => _ end) with (stored (fseen c) a pid)
      by (destruct (stored (fseen c) a pid); reflexivity).
    assert (X : forall s', stored (fseen (insert_parameter s' g c)) a pid = stored (fseen c) a pid).
    { intros s'. unfold insert_parameter. destruct (lookup_fst s' _); reflexivity. }
    cbn [fstep]. unfold parameter_entry. destruct s as [s|].
    + destruct (String.eqb s "").
      * destruct (max_pid _); cbn [fst]; auto.
      * cbn [fst]; auto.
    + destruct (max_pid _); cbn [fst]; auto.
  - cbn [fstep]. cbn [fstep] in W'. unfold fingerprint_entry in *.
    destruct (resolve p (fseen c)) as [n|e]; cbn [fst snd] in *;
      [|destruct (stored (fseen c) a pid); reflexivity].
    destruct (lookup_fst b (images (fseen c))) as [i|] eqn:E; cbn [fst snd] in *;
      [|destruct (stored (fseen c) a pid); reflexivity].
    apply lookup_fst_Some in E.
    destruct (has_entry i n (fingerprints (fseen c))) eqn:HE; cbn [fst snd] in *.
    + destruct (stored (fseen c) a pid) as [w|] eqn:S; auto.
      destruct (String.eqb b a && (n =? pid)) eqn:B; auto.
      apply andb_true_iff in B. destruct B as [B1 B2]. apply String.eqb_eq in B1. apply Nat.eqb_eq in B2.
      subst b n. apply has_entry_In in HE. apply in_map_iff in HE. destruct HE as [[q w] [Eq Hq]].
      simpl in Eq. subst q. exfalso.
      assert (stored (fseen c) a pid = Some w) by (apply stored_spec; auto; exists i; auto). congruence.
    + apply option_ext. intros w. rewrite stored_spec by auto. cbn [fseen images fingerprints].
      split.
      * intros [j [Hj He]]. apply in_app_iff in He. destruct He as [He|[[= -> -> ->]|[]]].
        -- assert (S : stored (fseen c) a pid = Some w) by (apply stored_spec; auto; exists j; auto).
           rewrite S. auto.
        -- destruct (stored (fseen c) a pid) as [w'|] eqn:S.
           ++ apply stored_spec in S; auto. destruct S as [j' [Hj' He']].
              pose proof (@keyed_snd_inj _ _ (j', a) (j, a) KI Hj' Hj eq_refl) as X. injection X as ->.
              assert (HE' : has_entry j pid (fingerprints (fseen c)) = true).
              { apply has_entry_In. change (j, pid) with (fst (j, pid, w')). apply in_map; auto. }
              congruence.
           ++ pose proof (ase_of_iff (fseen c) j a KI) as A1.
              assert (a = b).
              { destruct KI as [K1 _]. 
                assert (Y : forall (l : list (nat * string)) x y, NoDup (map fst l) -> In x l -> In y l -> fst x = fst y -> x = y).
                { clear. induction l as [|z t IH]; simpl; [tauto|]. intros x y ND Hx Hy E.
                  inversion ND; subst. destruct Hx as [->|Hx], Hy as [->|Hy]; auto.
                  - exfalso. apply H1. rewrite E. apply in_map; auto.
                  - exfalso. apply H1. rewrite <- E. apply in_map; auto. }
                pose proof (Y _ (j, a) (j, b) K1 Hj E eq_refl). congruence. }
              subst b. rewrite String.eqb_refl, Nat.eqb_refl. reflexivity.
      * destruct (stored (fseen c) a pid) as [w'|] eqn:S.
        -- intros [= ->]. apply stored_spec in S; auto. destruct S as [j [Hj He]].
           exists j. rewrite in_app_iff. auto.
        -- destruct (String.eqb b a && (n =? pid)) eqn:B; [|discriminate]. intros [= <-].
           apply andb_true_iff in B. destruct B as [B1 B2]. apply String.eqb_eq in B1.
           apply Nat.eqb_eq in B2. subst b n. exists i. split; auto.
           rewrite in_app_iff. simpl. auto.
Qed.

(** ** get_fingerprints *)
Variable through_text : V -> V.

Lemma memb_perm s l l' : Permutation l l' -> memb s l = memb s l'.
Proof.
  intros P. destruct (memb s l') eqn:E.
  - apply memb_In in E. apply memb_In. eapply Permutation_in; [symmetry; exact P|auto].
  - apply memb_false in E. apply memb_false. intros H. apply E. eapply Permutation_in; eauto.
Qed.

Lemma joined_perm (d : fdb V) pids ids ids' :
  Permutation ids ids' -> joined d pids ids = joined d pids ids'.
Proof.
  intros P. unfold joined. induction (fingerprints d) as [|e t IH]; simpl; auto.
  rewrite IH. f_equal. destruct (ase_of d (fst (fst e))); auto.
  rewrite (memb_perm s ids ids' P). reflexivity.
Qed.

Lemma dedup_In x l : In x (dedup l) <-> In x l.
Proof.
  induction l as [|y t IH]; simpl; [tauto|]. rewrite filter_In, IH.
  destruct (String.eqb y x) eqn:E.
  - apply String.eqb_eq in E. tauto.
  - apply String.eqb_neq in E. simpl. intuition.
Qed.

Lemma dedup_NoDup l : NoDup (dedup l).
Proof.
  induction l as [|y t IH]; simpl; constructor.
  - rewrite filter_In. rewrite String.eqb_refl. simpl. intuition discriminate.
  - apply NoDup_filter; auto.
Qed.
End Fingerprint.

(** String order. *)
Lemma string_compare_Eq s t : String.compare s t = Eq <-> s = t.
Proof.
  split; [apply String.compare_eq_iff|]. intros <-.
  pose proof (String.compare_antisym s s) as H. destruct (String.compare s s); simpl in H; congruence.
Qed.

Lemma ascii_compare_refl a : Ascii.compare a a = Eq.
Proof. unfold Ascii.compare. apply N.compare_refl. Qed.

Lemma ascii_compare_trans a b c :
  Ascii.compare a b = Lt -> Ascii.compare b c = Lt -> Ascii.compare a c = Lt.
Proof.
  unfold Ascii.compare. rewrite !N.compare_lt_iff. apply N.lt_trans.
Qed.

Lemma string_lt_trans s t u :
  String.compare s t = Lt -> String.compare t u = Lt -> String.compare s u = Lt.
Proof.
  revert t u. induction s as [|a s IH]; intros [|b t] [|c u]; simpl; try congruence.
  destruct (Ascii.compare a b) eqn:E1; destruct (Ascii.compare b c) eqn:E2; try congruence; intros H1 H2.
  - apply Ascii.compare_eq_iff in E1, E2. subst. 
    rewrite ascii_compare_refl. eauto.
  - apply Ascii.compare_eq_iff in E1. subst. rewrite E2. auto.
  - apply Ascii.compare_eq_iff in E2. subst. rewrite E1. auto.
  - rewrite (ascii_compare_trans a b c); auto.
Qed.

Lemma string_leb_order : total_order String.leb.
Proof.
  unfold String.leb. split; [split|].
  - intros x y. rewrite (String.compare_antisym x y). destruct (String.compare y x); simpl; auto.
  - intros x y z. destruct (String.compare x y) eqn:E1; destruct (String.compare y z) eqn:E2; try congruence; intros _ _.
    + apply string_compare_Eq in E1, E2. subst.
      assert (X : String.compare z z = Eq) by (apply string_compare_Eq; auto). rewrite X; auto.
    + apply string_compare_Eq in E1. subst. rewrite E2. auto.
    + apply string_compare_Eq in E2. subst. rewrite E1. auto.
    + rewrite (string_lt_trans x y z); auto.
  - intros x y. rewrite (String.compare_antisym x y). destruct (String.compare y x) eqn:E; simpl; try congruence.
    intros _ _. apply string_compare_Eq in E. auto.
Qed.

Lemma isort_string_perm l l' : Permutation l l' -> isort String.leb l = isort String.leb l'.
Proof.
  intros P. destruct string_leb_order as [TP AS].
  apply (sorted_perm_unique (R := fun x y => String.leb x y = true)).
  - intros x y; apply AS.
  - intros x. apply (tp_refl TP).
  - apply isort_sorted; auto.
  - apply isort_sorted; auto.
  - rewrite !isort_perm. exact P.
Qed.
