(** Property theorems C121 (the optimizer's part): the coordinates in which the parameters of a
    layer are expressed do not matter, as long as lengths and angles are the same. *)
From Coq Require Import List Arith Bool Reals Lra Lia.
From Verif.Base Require Import Py.
From Verif.Tensors Require Import Model.
From Verif.Train Require Import Model Spec VecProofs RotateSpec RotateProofs.
Import ListNotations.
Open Scope list_scope.
Open Scope R_scope.

(** Orthogonal matrices, one for each variable, give such coordinates. *)
Theorem C121_coordinates : forall n Q,
  (forall j, preserves_products (n j) (Q j)) -> isometric (in_coordinates n Q).
Proof. exact coordinates_isometric. Qed.
Print Assumptions C121_coordinates.

(** One call of apply_gradients, for every momentum type and every option: the new parameters
    and velocities are those of the other coordinates, everything else that the call leaves
    behind is the same; or it raises the same exception. *)
Theorem C121_step : forall P c x x' s s' g g',
  isometric P -> same_ctx P x x' -> same_state P s s' -> same_pairs P g g' ->
  res_rel (same_state P) (apply_gradients c x s g) (apply_gradients c x' s' g').
Proof. exact (fun P c x x' s s' g g' ISO => same_step P ISO c x x' s s' g g'). Qed.
Print Assumptions C121_step.

(** Any sequence of calls. *)
Theorem C121_steps : forall P c s s' l l',
  isometric P -> same_state P s s' ->
  Forall2 (fun a b => same_ctx P (fst a) (fst b) /\ same_pairs P (snd a) (snd b)) l l' ->
  res_rel (same_state P) (run_steps c s l) (run_steps c s' l').
Proof. exact (fun P c s s' l l' ISO => same_steps P ISO c l l' s s'). Qed.
Print Assumptions C121_steps.

(** Training with the periodic optimizer: covariances, inverses, damping and parameters all
    evolve together, and after any number of executions the parameters are the same, in the
    other coordinates.  The initial contents of the inverses do not matter. *)
Theorem C121_training :
  forall (Batch I Inv : Type) P Ls (p : pcfg) (e e' : env Batch I Inv) params0 params0' d0 factors
         inv0 inv0' inputs states states',
  isometric P -> same_env P Ls e e' -> length Ls = factors ->
  (forall j, P j (params0 j) (params0' j)) ->
  is_run p e (initial params0 d0 factors inv0) inputs states ->
  is_run p e' (initial params0' d0 factors inv0') inputs states' ->
  forall t,
    same_state P (o_st (states t)) (o_st (states' t)) /\
    o_cov (states' t) = moved_cov Ls (o_cov (states t)).
Proof.
  intros Batch I Inv P Ls p e e' params0 params0' d0 factors inv0 inv0' inputs states states' ISO E LW V RUN RUN' t.
  destruct (moved_run Batch I Inv P Ls p e e' ISO E params0 params0' d0 factors inv0 inv0' inputs states LW V RUN)
    as (st' & R' & REL).
  assert (D : states' t = st' t).
  { clear REL. destruct RUN' as [A B], R' as [A' B'].
    induction t as [|t IH]; [rewrite A, A'; reflexivity|].
    assert (Q : Ok (states' (S t)) = Ok (st' (S t))) by (rewrite <- B, <- B', IH; reflexivity).
    injection Q as Q. exact Q. }
  rewrite D. destruct (REL t) as [R1 R2 _ _]. split; assumption.
Qed.
Print Assumptions C121_training.

(** And if training does not raise in one system of coordinates, it does not in the other. *)
Theorem C121_training_goes_on :
  forall (Batch I Inv : Type) P Ls (p : pcfg) (e e' : env Batch I Inv) params0 params0' d0 factors
         inv0 inv0' inputs states,
  isometric P -> same_env P Ls e e' -> length Ls = factors ->
  (forall j, P j (params0 j) (params0' j)) ->
  is_run p e (initial params0 d0 factors inv0) inputs states ->
  exists states', is_run p e' (initial params0' d0 factors inv0') inputs states'.
Proof.
  intros Batch I Inv P Ls p e e' params0 params0' d0 factors inv0 inv0' inputs states ISO E LW V RUN.
  destruct (moved_run Batch I Inv P Ls p e e' ISO E params0 params0' d0 factors inv0 inv0' inputs states LW V RUN)
    as (st' & R' & _).
  exists st'. exact R'.
Qed.
Print Assumptions C121_training_goes_on.

(** The hypotheses are met: the rotation with the numbers 3/5 and 4/5; half the squared
    distance of the parameters to a target as the loss, the squared length of its gradient as
    the only covariance.  The rows [B] turn the parameters into the outputs of the model. *)
Definition rot : list vec := [[3/5; -4/5]; [4/5; 3/5]].
Definition rot_back : list vec := [[3/5; 4/5]; [-4/5; 3/5]].
Definition to_target (t : vec) (params : nat -> vec) : vec := vadd (params 0%nat) (vscale (-1) t).
Definition target_env (t : vec) (B : list vec) : env nat unit R :=
  mkEnv (fun params _ => [(to_target t params, 0%nat)])
        (fun _ params => 1/2 * dot (to_target t params) (to_target t params))
        (fun params _ => [fun _ => dot (to_target t params) (to_target t params)])
        (fun cov damping => match cov with m :: _ => m_var m tt + damping | [] => damping end)
        (fun inv l => sprod_p (/ inv) l)
        (fun _ inv _ l => sprod_p inv l)
        (fun _ _ u => map (matvec B) u).

Lemma rot_products : preserves_products 2 rot.
Proof.
  intros [|a [|b [|]]] [|c [|d [|]]] L L'; try discriminate L; try discriminate L'.
  unfold dot. cbn. lra.
Qed.
Example C121_rotation_met :
  let P := in_coordinates (fun _ => 2%nat) (fun _ => rot) in
  isometric P /\
  P 0%nat [1; 2] [-1; 2] /\
  same_env P [fun f => f] (target_env [1; 2] [[1; 0]; [0; 1]]) (target_env [-1; 2] rot_back).
Proof.
  cbv zeta. set (P := in_coordinates (fun _ => 2%nat) (fun _ => rot)).
  assert (ISO : isometric P) by (apply coordinates_isometric; intros j; exact rot_products).
  assert (T : P 0%nat [1; 2] [-1; 2]).
  { split; [reflexivity|]. unfold dot. cbn. unfold dot. cbn. f_equal; [lra|f_equal; lra]. }
  assert (TT : forall p p', (forall j, P j (p j) (p' j)) -> P 0%nat (to_target [1; 2] p) (to_target [-1; 2] p')).
  { intros p p' H. apply ISO; [apply H|]. apply ISO, T. }
  split; [exact ISO|]. split; [exact T|].
  split; [constructor; [intros a b f g; reflexivity|constructor]|].
  split; [|split; [|split; [|split]]].
  - intros p p' b H. cbn [target_env e_grads]. constructor; [|constructor]. split; [reflexivity|apply TT, H].
  - intros p p' b H. cbn [target_env e_loss]. f_equal. apply ISO with (j := 0%nat); apply TT, H.
  - intros p p' b H. cbn [target_env e_stats zip map fst snd]. f_equal.
    replace (dot (to_target [-1; 2] p') (to_target [-1; 2] p')) with (dot (to_target [1; 2] p) (to_target [1; 2] p));
      [reflexivity|].
    symmetry. apply ISO with (j := 0%nat); apply TT, H.
  - intros p p' b u u' H U. cbn [target_env e_mft]. clear H.
    induction U as [|[v k] [v' k'] u u' [_ [L V]] U IH]; [reflexivity|]. cbn [map fst snd] in *. rewrite IH. f_equal.
    subst v'. destruct v as [|a [|c [|]]]; try discriminate L.
    unfold matvec, rot, rot_back. cbn [map]. unfold dot. cbn. f_equal; [lra|f_equal; lra].
  - intros cov d. cbn [target_env e_invert].
    replace (match moved_cov [fun f => f] cov with m :: _ => m_var m tt + d | [] => d end)
      with (match cov with m :: _ => m_var m tt + d | [] => d end) by (destruct cov; reflexivity).
    split.
    + intros g g' G. cbn [target_env e_precond]. apply sp_scale; assumption.
    + intros co dd u u' U. cbn [target_env e_mult]. apply sp_scale; assumption.
Qed.

(** Lengths must be preserved: if the same model is written with a parameter twice as large, the
    damped step differs.  (Target 0: loss half the square of the parameter [p], or half the
    square of [q / 2].  From 1 the step leads to 1/2; from 2, where the gradient is 1/2 and the
    covariance 1/4, with the same damping to 8/5, not to 1.) *)
Definition scaled_env (a : R) : env nat unit R :=
  mkEnv (fun params _ => [(vscale (a * a) (params 0%nat), 0%nat)])
        (fun _ params => 1/2 * (a * coord 0 (params 0%nat)) ^ 2)
        (fun params _ => [fun _ => (a * a * coord 0 (params 0%nat)) ^ 2])
        (fun cov damping => match cov with m :: _ => m_var m tt + damping | [] => damping end)
        (fun inv l => sprod_p (/ inv) l)
        (fun _ inv _ l => sprod_p inv l)
        (fun _ _ u => sprod a u).
Definition plain_pcfg : pcfg :=
  mkP (mkCfg Regular 1 0 None false 0 None 1 false false true true 1 1 0 0 0 0 false) 1 1 0 1.
Example C121_lengths_matter :
  exists s s',
    minimize plain_pcfg (scaled_env 1) (initial (fun _ => [1]) 1 1 0) (mkIn 0%nat 0%nat true) = Ok s /\
    minimize plain_pcfg (scaled_env (1/2)) (initial (fun _ => [2]) 1 1 0) (mkIn 0%nat 0%nat true) = Ok s' /\
    s_params (o_st s) 0%nat = [1/2] /\ s_params (o_st s') 0%nat = [8/5].
Proof.
  eexists. eexists. split; [reflexivity|]. split; [reflexivity|].
  split; cbn; unfold coord; cbn [nth]; f_equal; field.
Qed.
