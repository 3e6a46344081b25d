(** C117: the quadratic-model mode on losses that are quadratic. *)
From Coq Require Import List Arith Bool Reals Lra Lia.
From Verif.Base Require Import Py.
From Verif.Tensors Require Import Model.
From Verif.Train Require Import Model Spec VecProofs StepProofs QmodelProofs PeriodicProofs
  WitnessProofs QuadSpec QuadProofs QuadExample.
Import ListNotations.
Open Scope list_scope.
Open Scope R_scope.

(** The property: on a loss that is exactly the quadratic function the optimizer models it with,
    every step of the quadratic-model mode predicts the change of the loss exactly and does not
    raise the loss, and the damping adaptation therefore takes the damping down to its floor. *)

(** One step, from any state, where the system to solve has a solution. *)
Theorem C117_exact_step_partial : forall c x s g loss,
  c_mtype c = Qmodel -> qmodel_lr c -> c_use_wd c = false -> c_incl c = false ->
  well_shaped s g -> good_ctx x g ->
  0 < s_damping s -> c_l2 c <= s_damping s -> 0 <= c_lr c <= 2 ->
  solvable (x_mft x) (c_batch_size c) (s_damping s) (map fst g) (map fst (x_precond x g))
    (previous_update s (map snd g)) ->
  quadratic_at loss (x_mft x) (c_batch_size c) (c_l2 c) (s_params s) g ->
  exists s', apply_gradients c x s g = Ok s' /\
    s_qchange s' = Some (loss (s_params s') - loss (s_params s)) /\
    loss (s_params s') <= loss (s_params s) /\
    (0 < c_lr c < 2 -> inner (map fst g) (map fst (x_precond x g)) <> 0 ->
       loss (s_params s') < loss (s_params s)).
Proof.
  exact (fun c x s g loss M LR WD IN W G D L R SV =>
    exact_step c x s g M W G LR D WD SV loss IN L R).
Qed.
Print Assumptions C117_exact_step_partial.

(** Whole runs, with the damping adapted at once or one step later: every full step predicts the
    change of its own mini-batch's loss exactly and does not raise that loss. *)
Theorem C117_exact_run_partial :
  forall (Batch I Inv : Type) (p : pcfg) (e : env Batch I Inv) params0 d0 factors inv0 inputs states,
  is_run p e (initial params0 d0 factors inv0) inputs states -> good_env e params0 factors ->
  let c := p_cfg p in
  c_mtype c = Qmodel -> qmodel_lr c -> c_use_wd c = false -> c_incl c = false ->
  0 <= c_lr c <= 2 -> quadratic_env e params0 (c_batch_size c) (c_l2 c) ->
  c_adapt c = true ->
  c_immediate c = true \/
    (c_immediate c = false /\ c_chief c = true /\
     forall t, i_prev (inputs (S t)) = i_batch (inputs t)) ->
  (1 <= c_interval c)%nat -> 0 < c_decay c ^ c_interval c <= 1 ->
  0 < d0 -> 0 <= c_min_damping c -> c_l2 c <= d0 ->
  (forall n, solvable_step c e inputs states (p_burnin p + n)) ->
  forall n, let t := (p_burnin p + n)%nat in
    s_qchange (o_st (states (S t))) = Some (own_change e inputs states t) /\
    own_change e inputs states t <= 0 /\
    (0 < c_lr c < 2 -> slope e inputs states t <> 0 -> own_change e inputs states t < 0).
Proof.
  intros Batch I Inv p e params0 d0 factors inv0 inputs states RUN GE c M LR WD IN R2 QE AD MODE HI HW HD HF HL SV n.
  exact (run_exact p e params0 d0 factors inv0 inputs states RUN GE M LR WD IN R2 QE AD MODE HI HW HD HF HL SV n).
Qed.
Print Assumptions C117_exact_run_partial.

(** And the damping each full step solves with is multiplied by the adaptation factor once per
    adaptation interval, down to the floor, and never goes up above its initial value or the
    floor. *)
Theorem C117_damping_to_floor_partial :
  forall (Batch I Inv : Type) (p : pcfg) (e : env Batch I Inv) params0 d0 factors inv0 inputs states,
  is_run p e (initial params0 d0 factors inv0) inputs states -> good_env e params0 factors ->
  let c := p_cfg p in
  c_mtype c = Qmodel -> qmodel_lr c -> c_use_wd c = false -> c_incl c = false ->
  0 <= c_lr c <= 2 -> quadratic_env e params0 (c_batch_size c) (c_l2 c) ->
  c_adapt c = true ->
  c_immediate c = true \/
    (c_immediate c = false /\ c_chief c = true /\
     forall t, i_prev (inputs (S t)) = i_batch (inputs t)) ->
  (1 <= c_interval c)%nat -> 0 < c_decay c ^ c_interval c <= 1 ->
  0 < d0 -> 0 <= c_min_damping c -> 0 <= c_l2 c <= d0 -> c_dec c < 1 ->
  (forall n, solvable_step c e inputs states (p_burnin p + n)) ->
  (forall n, Nat.modulo (S n) (c_interval c) = 0%nat ->
     own_change e inputs states (p_burnin p + n) <> 0) ->
  forall n, damping_used c states (p_burnin p + n) = floored_decay c d0 (n / c_interval c).
Proof.
  intros Batch I Inv p e params0 d0 factors inv0 inputs states RUN GE c M LR WD IN R2 QE AD MODE HI HW HD HF [HL0 HL] HR SV CH n.
  exact (run_floor p e params0 d0 factors inv0 inputs states RUN GE M LR WD IN R2 QE AD MODE HI HW HD HF HL SV HR CH HL0 n).
Qed.
Print Assumptions C117_damping_to_floor_partial.

(** Without "the system has a solution" the property fails: if the previous update is a multiple
    of the preconditioned gradient, the 2x2 system that the step inverts is singular. *)
Theorem C117_parallel_refuted : forall c x s g t,
  well_shaped s g -> good_ctx x g ->
  previous_update s (map snd g) = comb t (map fst (x_precond x g)) 0 (map fst (x_precond x g)) ->
  exists m cc b,
    compute_qmodel c x s (x_precond x g) (compute_prev_updates s (map snd g)) g = Ok (m, cc, b) /\
    m00 m * m11 m - m01 m * m10 m = 0.
Proof. exact parallel_unsolvable. Qed.
Print Assumptions C117_parallel_refuted.

(** This is what happens in the second step of a model with one scalar parameter: the loss is
    quadratic and its gradient is not zero, the shortcut for orthogonal gradients does not apply,
    and the step divides by zero. *)
Theorem C117_one_parameter_refuted : exists c x s g1 s1 g2 loss,
  c_mtype c = Qmodel /\ qmodel_lr c /\ c_use_wd c = false /\ c_incl c = false /\
  0 < s_damping s /\ (forall k j, coord j (s_vel s k) = 0) /\
  well_shaped s g1 /\ good_ctx x g1 /\
  quadratic_at loss (x_mft x) (c_batch_size c) (c_l2 c) (s_params s) g1 /\
  apply_gradients c x s g1 = Ok s1 /\
  well_shaped s1 g2 /\ good_ctx x g2 /\
  quadratic_at loss (x_mft x) (c_batch_size c) (c_l2 c) (s_params s1) g2 /\
  0 < inner (map fst g2) (map fst (x_precond x g2)) /\
  inner (map fst g2) (previous_update s1 (map snd g2)) <> 0 /\
  exists m cc b,
    compute_qmodel c x s1 (x_precond x g2) (compute_prev_updates s1 (map snd g2)) g2 = Ok (m, cc, b) /\
    m00 m * m11 m - m01 m * m10 m = 0.
Proof. exact one_parameter_singular. Qed.
Print Assumptions C117_one_parameter_refuted.

(** The hypotheses are met by runs: least squares with two parameters, one training example per
    mini-batch, in both modes of adaptation. *)
Example C117_instance : forall immediate, exists states,
  let p := ls_pcfg immediate in let c := p_cfg p in
  is_run p ls_env (initial ls_params (1/2) 1 tt) ls_inputs states /\
  good_env ls_env ls_params 1 /\
  c_mtype c = Qmodel /\ qmodel_lr c /\ c_use_wd c = false /\ c_incl c = false /\
  0 < c_lr c < 2 /\ quadratic_env ls_env ls_params (c_batch_size c) (c_l2 c) /\
  c_adapt c = true /\
  (c_immediate c = true \/
    (c_immediate c = false /\ c_chief c = true /\
     forall t, i_prev (ls_inputs (S t)) = i_batch (ls_inputs t))) /\
  (1 <= c_interval c)%nat /\ 0 < c_decay c ^ c_interval c <= 1 /\
  0 <= c_min_damping c /\ 0 <= c_l2 c <= 1/2 /\ c_dec c < 1 /\
  (forall n, solvable_step c ls_env ls_inputs states (p_burnin p + n)) /\
  (forall n, own_change ls_env ls_inputs states (p_burnin p + n) < 0) /\
  damping_used c states (p_burnin p + 12) = 1/2 * (19/20) ^ 10.
Proof.
  intros im.
  destruct (run_exists (ls_pcfg im) ls_env ls_params 1 ls_good ls_inputs (initial ls_params (1/2) 1 tt)
              (initial_shaped ls_params (1/2) 1 tt)) as [states RUN].
  exists states. cbv zeta.
  assert (O : forall n, own_change ls_env ls_inputs states (p_burnin (ls_pcfg im) + n) < 0).
  { intros n.
    destruct (C117_exact_run_partial nat unit unit (ls_pcfg im) ls_env ls_params (1/2) 1 tt ls_inputs states
                RUN ls_good) with (n := n) as [_ [_ H]]; try reflexivity; try exact ls_quadratic;
      try (cbn; lra); try (cbn; lia).
    - apply (ls_mode im).
    - intros m. apply (ls_solvable im states RUN m).
    - apply H; [cbn; lra|]. apply (ls_slope im states RUN n). }
  split; [exact RUN|]. split; [exact ls_good|]. split; [reflexivity|]. split; [reflexivity|].
  split; [reflexivity|]. split; [reflexivity|]. split; [cbn; lra|].
  split; [exact ls_quadratic|]. split; [reflexivity|]. split; [apply (ls_mode im)|].
  split; [cbn; lia|]. split; [cbn; lra|]. split; [cbn; lra|]. split; [cbn; lra|]. split; [cbn; lra|].
  split; [intros n; apply (ls_solvable im states RUN n)|]. split; [exact O|].
  rewrite (C117_damping_to_floor_partial nat unit unit (ls_pcfg im) ls_env ls_params (1/2) 1 tt ls_inputs states
             RUN ls_good) with (n := 12%nat); try reflexivity; try exact ls_quadratic; try (cbn; lra); try (cbn; lia).
  - unfold floored_decay. cbn [ls_pcfg p_cfg ls_cfg c_interval c_decay c_min_damping c_l2].
    change (12 / 5)%nat with 2%nat. cbn [Nat.eqb]. rewrite Rmax_left by lra. rewrite <- pow_mult. reflexivity.
  - apply (ls_mode im).
  - intros m. apply (ls_solvable im states RUN m).
  - intros m _. pose proof (O m). lra.
Qed.
