(** Proofs about the surrogate optimisers. *)
From Coq Require Import Reals Lra Lia List Arith Bool.
From Verif Require Import Base BaseFacts RBase OptModel.
Import ListNotations.
Open Scope R_scope.

(** ** Selection of the best element *)
Lemma best_from_spec {A} (sc : A -> R) : forall l b,
  (best_from sc b l = b \/ In (best_from sc b l) l) /\ sc b <= sc (best_from sc b l) /\
  forall x, In x l -> sc x <= sc (best_from sc b l).
Proof.
  induction l as [|a l IH]; intros b; cbn [best_from].
  - split; [auto|]. split; [lra|]. intros x [].
  - destruct (IH (if Rltb (sc b) (sc a) then a else b)) as (H1 & H2 & H3).
    destruct (Rltb (sc b) (sc a)) eqn:EB.
    + apply Rltb_true in EB. split; [right; destruct H1 as [->|H1]; cbn; auto|]. split; [lra|]. intros x [<-|Hx]; auto.
    + apply Rltb_false in EB. split; [destruct H1 as [->|H1]; cbn; auto|]. split; [auto|]. intros x [<-|Hx]; auto. lra.
Qed.

Lemma best_spec {A} (sc : A -> R) l x : best sc l = Ok x -> In x l /\ forall y, In y l -> sc y <= sc x.
Proof.
  destruct l as [|a l]; [discriminate|]. cbn. intros E. injection E as <-.
  destruct (best_from_spec sc l a) as (H1 & H2 & H3). split; [destruct H1 as [->|H1]; auto|]. intros y [<-|Hy]; auto.
Qed.

Lemma mapr_length {A B} (f : A -> result B) : forall l r, mapr f l = Ok r -> length r = length l.
Proof.
  induction l as [|a l IH]; intros r E; cbn in E; [injection E as <-; auto|].
  destruct (f a); [|discriminate]. cbn in E. destruct (mapr f l); [|discriminate]. cbn in E. injection E as <-. cbn. f_equal. auto.
Qed.

Lemma mapr_app {A B} (f : A -> result B) : forall l x r y, mapr f l = Ok r -> f x = Ok y -> mapr f (l ++ [x]) = Ok (r ++ [y]).
Proof.
  induction l as [|a l IH]; intros x r y E1 E2; cbn in *.
  - injection E1 as <-. rewrite E2. reflexivity.
  - destruct (f a) as [b|]; [|discriminate]. cbn in *. destruct (mapr f l) as [r'|] eqn:EM; [|discriminate]. cbn in E1. injection E1 as <-.
    rewrite (IH x r' y eq_refl E2). reflexivity.
Qed.

Lemma Rlist_eqb_true x y : Rlist_eqb x y = true <-> x = y.
Proof. unfold Rlist_eqb. destruct (list_eq_dec Req_EM_T x y); split; auto; discriminate. Qed.

Lemma is_duplicate_spec p : forall l b, is_duplicate p l = Ok b -> b = true <-> In p l.
Proof.
  induction l as [|q l IH]; intros b E; cbn in E.
  - injection E as <-. cbn. split; [discriminate|intros []].
  - destruct (Nat.eqb_spec (length q) (length p)); [|discriminate]. destruct (is_duplicate p l) as [r|]; [|discriminate].
    cbn in E. injection E as <-. rewrite orb_true_iff, Rlist_eqb_true, (IH r eq_refl). cbn. tauto.
Qed.
