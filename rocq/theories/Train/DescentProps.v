(** C110: steps that go downhill, and steps that do not. *)
From Coq Require Import String List Arith Bool Reals Lra Lia.
From Verif.Base Require Import Py.
From Verif.Train Require Import Model Spec DescentSpec VecProofs StepProofs QmodelProofs
  WitnessProofs DescentProofs.
Import ListNotations.
Open Scope list_scope.
Open Scope R_scope.

(** The property: a successful step, taken with a preconditioner that turns the gradient into a
    direction of positive slope, never raises the loss to first order. *)

(** It fails with momentum: two steps from zero velocities, the second one goes uphill. *)
Theorem C110_momentum_refuted : exists c x s g1 g2 s1 s2,
  c_mtype c = Regular /\ c_use_wd c = false /\ c_norm c = None /\ 0 < c_lr c /\
  (forall k j, coord j (s_vel s k) = 0) /\ well_shaped s g1 /\ well_shaped s1 g2 /\
  shape_preserving (x_precond x) /\ (forall l, x_precond x l = l) /\
  apply_gradients c x s g1 = Ok s1 /\ apply_gradients c x s1 g2 = Ok s2 /\
  0 < inner (map fst g2) (map fst (x_precond x g2)) /\
  0 < inner (map fst g2) (displacement (map snd g2) (s_params s1) (s_params s2)).
Proof. exact momentum_uphill. Qed.
Print Assumptions C110_momentum_refuted.

(** It fails in the mode with a fixed momentum and a step size chosen by the quadratic model,
    although the curvature is positive. *)
Theorem C110_fixed_momentum_refuted : exists c x s g1 g2 s1 s2,
  c_mtype c = QmodelFixedMu /\ c_use_wd c = false /\ qmodel_lr c /\ 0 < c_lr c /\ 0 <= c_momentum c < 1 /\
  s_damping s = 1 /\ (forall k j, coord j (s_vel s k) = 0) /\
  well_shaped s g1 /\ good_ctx x g1 /\ well_shaped s1 g2 /\ good_ctx x g2 /\
  (forall l, x_precond x l = l) /\
  (forall u, same_shape u (map fst g2) -> 0 <= curvature (x_mft x) (c_batch_size c) (s_damping s1) u) /\
  apply_gradients c x s g1 = Ok s1 /\ apply_gradients c x s1 g2 = Ok s2 /\
  0 < inner (map fst g2) (map fst (x_precond x g2)) /\
  0 < inner (map fst g2) (displacement (map snd g2) (s_params s1) (s_params s2)).
Proof. exact fixed_uphill. Qed.
Print Assumptions C110_fixed_momentum_refuted.

(** It fails with weight decay. *)
Theorem C110_weight_decay_refuted : exists c x s g s',
  c_mtype c = Regular /\ c_use_wd c = true /\ 0 < c_wd c /\ c_momentum c = 0 /\ c_norm c = None /\
  0 < c_lr c /\ (forall k j, coord j (s_vel s k) = 0) /\ well_shaped s g /\
  shape_preserving (x_precond x) /\ (forall l, x_precond x l = l) /\
  apply_gradients c x s g = Ok s' /\
  0 < inner (map fst g) (map fst (x_precond x g)) /\
  0 < inner (map fst g) (displacement (map snd g) (s_params s) (s_params s')).
Proof. exact weight_decay_uphill. Qed.
Print Assumptions C110_weight_decay_refuted.

(** Without weight decay and with nothing carried over (no momentum, or the first step), regular
    and adam steps go downhill, clipped or not.  Missing: steps with momentum carried over and
    weight decay (refuted above). *)
Theorem C110_step_partial :
  forall (c : cfg) (x : ctx) (s : st) (g : pairs),
    c_mtype c = Regular \/ c_mtype c = Adam -> c_use_wd c = false -> nothing_carried c s g ->
    well_shaped s g -> shape_preserving (x_precond x) -> shape_preserving (x_mult x) ->
    (forall nc, c_norm c = Some nc -> 0 < nc) -> 0 < c_lr c ->
    0 < inner (map fst g) (map fst (x_precond x g)) ->
    exists s', apply_gradients c x s g = Ok s' /\
      inner (map fst g) (displacement (map snd g) (s_params s) (s_params s')) < 0.
Proof. exact fresh_descent. Qed.
Print Assumptions C110_step_partial.

(** And then a small enough learning rate really lowers a differentiable loss; the bound on the
    learning rate does not depend on the momentum mode or on the clipping. *)
Theorem C110_loss_goes_down_partial :
  forall (x : ctx) (s : st) (g : pairs) (loss : (nat -> vec) -> R),
    well_shaped s g -> shape_preserving (x_precond x) -> shape_preserving (x_mult x) ->
    0 < inner (map fst g) (map fst (x_precond x g)) ->
    is_gradient_of loss (s_params s) g ->
    exists lr0, 0 < lr0 /\ forall c,
      c_mtype c = Regular \/ c_mtype c = Adam -> c_use_wd c = false -> nothing_carried c s g ->
      (forall nc, c_norm c = Some nc -> 0 < nc) -> 0 < c_lr c < lr0 ->
      exists s', apply_gradients c x s g = Ok s' /\ loss (s_params s') < loss (s_params s).
Proof. exact small_steps. Qed.
Print Assumptions C110_loss_goes_down_partial.

(** With the momentum chosen by the quadratic model the step never goes uphill, whatever the
    velocities, where the model is strictly convex; it goes downhill unless the preconditioned
    gradient is orthogonal to the gradient.  Missing: weight decay. *)
Theorem C110_qmodel_partial :
  forall (c : cfg) (x : ctx) (s : st) (g : pairs),
    c_mtype c = Qmodel -> c_use_wd c = false -> qmodel_lr c -> 0 < c_lr c -> s_damping s <> 0 ->
    well_shaped s g -> good_ctx x g ->
    (forall a u, a <> 0 \/ u <> 0 ->
       0 < curvature (x_mft x) (c_batch_size c) (s_damping s)
             (comb a (map fst (x_precond x g)) u (previous_update s (map snd g)))) ->
    exists s', apply_gradients c x s g = Ok s' /\
      let d := displacement (map snd g) (s_params s) (s_params s') in
      inner (map fst g) d <= 0 /\
      (inner (map fst g) (map fst (x_precond x g)) <> 0 -> inner (map fst g) d < 0).
Proof. exact qmodel_descent. Qed.
Print Assumptions C110_qmodel_partial.

(** The hypotheses can be met: the loss p^2/2 at p = 1, clipped steps; and, for the quadratic
    model, velocities that are neither zero nor parallel to the gradient. *)
Example C110_hypotheses_met :
  (let g := [([1], 0%nat)] in
   well_shaped o_state g /\ shape_preserving (x_precond o_ctx) /\ shape_preserving (x_mult o_ctx) /\
   0 < inner (map fst g) (map fst (x_precond o_ctx g)) /\
   is_gradient_of (fun p => coord 0 (p 0%nat) ^ 2 / 2) (s_params o_state) g /\
   nothing_carried (o_cfg Adam (Some (1/4)) false false) o_state g) /\
  (well_shaped (q_st [1; -1]) q_g /\ good_ctx q_ctx q_g /\ qmodel_lr (q_cfg Qmodel) /\
   forall a u, a <> 0 \/ u <> 0 -> 0 < curvature (x_mft q_ctx) 1 1
      (comb a (map fst (x_precond q_ctx q_g)) u (previous_update (q_st [1; -1]) (map snd q_g)))).
Proof.
  split.
  - cbv zeta. split; [apply o_shaped|]. split; [apply shape_id|]. split; [apply shape_id|].
    split; [unfold inner, coord; cbn; lra|]. split; [|left; reflexivity].
    intros eps E. exists (2 * eps). split; [lra|]. intros p' L _.
    specialize (L 0%nat). cbn in L. cbv zeta. unfold displacement.
    cbn [map snd s_params o_state].
    destruct (p' 0%nat) as [|a [|b l]] eqn:P; try discriminate L.
    unfold inner, coord. cbn.
    match goal with |- context [sqrt ?e] => replace e with (Rsqr (a - 1)) by (unfold Rsqr; ring) end.
    rewrite sqrt_Rsqr_abs. intros Hd.
    match goal with |- Rabs ?e <= _ => replace e with ((a - 1) * (a - 1) / 2) by field end.
    rewrite Rabs_right by (pose proof (Rle_0_sqr (a - 1)) as S; unfold Rsqr in S; lra).
    pose proof (Rabs_pos (a - 1)). assert (Q : (a - 1) * (a - 1) = Rabs (a - 1) * Rabs (a - 1))
      by (rewrite <- Rabs_mult, Rabs_right by (pose proof (Rle_0_sqr (a - 1)) as S; unfold Rsqr in S; lra); reflexivity).
    rewrite Q. nra.
  - split; [apply q_shaped|]. split; [apply q_good|]. split; [reflexivity|].
    exact (proj2 (proj2 (proj2 q_instance))).
Qed.
