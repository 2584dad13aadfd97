(** Default bounds of the noise, and updates of a Gaussian process (catlearn/regression/gaussian_process.py 71-79, 361-413). *)
From Coq Require Import Reals Lra Lia List Arith Bool.
From Verif Require Import Base BaseFacts RBase LinAlg KernModel KernProofs KernSetupProofs KernDefProofs
  KernScaleProofs KernEntryProofs KernProperties KernFormProofs GPModel GPProofs GPMoreProofs GPProperties
  SensModel SensProperties ErrorProperties RidgeModel RidgeProofs RidgeFacts RidgeProperties GPRidgeProperties GPDataProperties GPNextProperties GPConstantProperties.
Import ListNotations.
Open Scope R_scope.
Set Bullet Behavior "Strict Subproofs".

Lemma update_lml_bounds cho cho_solve s s' : update_lml cho cho_solve s = Ok s' -> g_bounds s' = g_bounds s.
Proof.
  unfold update_lml. intros H. repeat match type of H with context [bind ?c _] => destruct c; [|discriminate]; cbn [bind] in H end. injection H as <-. reflexivity.
Qed.
Lemma update_data_bounds inv cho cho_solve s fp tgt g sopt s' : update_data inv cho cho_solve s fp tgt g sopt = Ok s' -> g_bounds s' = g_bounds s.
Proof.
  unfold update_data. destruct (negb _); [discriminate|]. destruct (if g_scale s then _ else _) as [[[[a b] c] d]|]; [|discriminate]. cbn [bind].
  destruct (get_covariance _ _ _ _ _ _); [|discriminate]. cbn [bind]. destruct (inv _); [|discriminate]. cbn [bind].
  destruct tgt; intros H; [apply update_lml_bounds in H; exact H|injection H as <-; reflexivity].
Qed.

(** Unless the user gives bounds, the regularization is optimised between 1e-6 and infinity, and between 1e-3 and 1e3 for a
    model with gradients; bounds given by the user are used as they are. *)
Theorem regularization_bounds_used : forall inv cho cho_solve fp tgt ks gradients reg rb sopt sdata s,
  gp_init inv cho cho_solve fp tgt ks gradients reg rb sopt sdata = Ok s ->
  exists kernel_bounds, g_bounds s = kernel_bounds ++ [match rb, gradients with
    | Some b, _ => b | None, None => (/ 1000000, None) | None, Some _ => (/ 1000, Some 1000) end].
Proof.
  intros inv cho cho_solve fp tgt ks gradients reg rb sopt sdata s E. unfold gp_init in E. destruct (negb _); [discriminate|]. cbv zeta in E.
  unfold prepare_kernels in E. destruct (prepare_loop ks (ncols fp) (default_bound (is_some gradients))) as [[p b]|]; [|discriminate]. cbn [bind fst snd] in E.
  apply update_data_bounds in E. cbn [g_bounds] in E. rewrite E. exists b. f_equal. f_equal. unfold init_bounds. destruct rb, gradients; reflexivity.
Qed.

(** Targets cannot be replaced without the features they belong to. *)
Theorem update_needs_features : forall inv cho cho_solve s tgt ks sopt gradients rb s',
  update_gp inv cho cho_solve s None (Some tgt) ks sopt gradients rb <> Ok s'.
Proof.
  intros inv cho cho_solve s tgt ks sopt gradients rb s' H. unfold update_gp in H. destruct ks as [ks|]; cbn [bind] in H; [|discriminate].
  destruct (prepare_kernels _ _ _ _); discriminate.
Qed.

(** A model with a constant kernel and default bounds; giving it targets alone is refused. *)
Example setup_case : exists s b,
  gp_init ref_inv ref_cho (fun _ v => v) [[0]; [2]] [3; 5] [constant 1] None (sqrt 2) None false false = Ok s /\
  g_bounds s = b ++ [(/ 1000000, None)] /\
  update_gp ref_inv ref_cho (fun _ v => v) s None (Some [1; 2]) None false None (0, None) = Err AssertionError.
Proof.
  destruct constant_case as (s & E & _). destruct (regularization_bounds_used _ _ _ _ _ _ _ _ _ _ _ _ E) as [b B].
  exists s, b. split; [exact E|]. split; [exact B|]. reflexivity.
Qed.

Print Assumptions regularization_bounds_used.
Print Assumptions update_needs_features.
