(** Property theorems C02, C03, C29 - C35. *)
From Coq Require Import String List Arith Bool Reals Lra Lia.
From Verif.Base Require Import Py.
From Verif.Tensors Require Import Model.
From Verif.Train Require Import Model Spec VecProofs CtorProofs StepProofs QmodelProofs MomentumProofs
  PeriodicProofs WitnessProofs.
Import ListNotations.
Open Scope list_scope.
Open Scope R_scope.

(* ======================================================================= *)
(** ** C02 *)

(** A well-behaved problem can be run for ever: no execution raises. *)
Theorem C02_runs_exist :
  forall (Batch I Inv : Type) (p : pcfg) (e : env Batch I Inv) params0 d0 factors inv0 inputs,
    good_env e params0 factors ->
    exists states, is_run p e (initial params0 d0 factors inv0) inputs states.
Proof.
  exact (fun Batch I Inv p e params0 d0 factors inv0 inputs GE =>
    run_exists p e params0 factors GE inputs _ (initial_shaped params0 d0 factors inv0)).
Qed.
Print Assumptions C02_runs_exist.

(** After burn-in and [n] further executions, whatever the scheduler did: the counter
    is [n], and every factor has absorbed, after the burn-in statistics, exactly the
    statistics of the executions whose counter is a multiple of cov_update_every, with
    the configured decay. *)
Theorem C02_covariance_schedule :
  forall (Batch I Inv : Type) (p : pcfg) (e : env Batch I Inv) params0 d0 factors inv0 inputs states
         (f n : nat),
    good_env e params0 factors ->
    is_run p e (initial params0 d0 factors inv0) inputs states ->
    (f < factors)%nat ->
    s_counter (o_st (states (p_burnin p + n)%nat)) = n /\
    nth f (o_cov (states (p_burnin p + n)%nat)) (mav_init (fun _ => 0) true)
    = mav_run (mav_init (fun _ => 0) true)
        (map (fun i => MAdd (stat_at e inputs states f i) 1 1) (seq 0 (p_burnin p)) ++
         map (fun i => MAdd (stat_at e inputs states f (p_burnin p + i)) (p_ema p) 1)
             (multiples_below (p_cov_every p) n)).
Proof.
  exact (fun Batch I Inv p e params0 d0 factors inv0 inputs states f n GE RUN Hf =>
    conj (proj1 (proj2 (full_phase p e params0 d0 factors inv0 inputs states RUN n)))
         (cov_full p e params0 d0 factors inv0 inputs states RUN GE f n Hf)).
Qed.
Print Assumptions C02_covariance_schedule.

(** After [n >= 1] full executions the inverses are those computed in the last one
    whose counter [m] is a multiple of invert_every, from the covariances left by
    that same execution and from its damping.  As [m] always exists (it is 0 at
    first) the initial content [inv0] is never used. *)
Theorem C02_inverse_schedule :
  forall (Batch I Inv : Type) (p : pcfg) (e : env Batch I Inv) params0 d0 factors inv0 inputs states
         (n : nat),
    is_run p e (initial params0 d0 factors inv0) inputs states ->
    (1 <= p_invert_every p)%nat -> (1 <= n)%nat ->
    exists m d,
      (m < n /\ m mod p_invert_every p = 0 /\
       forall m', m < m' < n -> m' mod p_invert_every p <> 0)%nat /\
      d = s_damping (o_st (states (if c_immediate (p_cfg p) then p_burnin p + m
                                   else S (p_burnin p + m))%nat)) /\
      o_inv (states (p_burnin p + n)%nat)
      = e_invert e (o_cov (states (S (p_burnin p + m)))) d.
Proof.
  exact (fun Batch I Inv p e params0 d0 factors inv0 inputs states n RUN =>
    inverse_schedule p e params0 d0 factors inv0 inputs states RUN n).
Qed.
Print Assumptions C02_inverse_schedule.

(** Every full execution applies the gradients with the inverses and covariances that
    are current at its end, i.e. after its own updates. *)
Theorem C02_step_uses_current_inverse :
  forall (Batch I Inv : Type) (p : pcfg) (e : env Batch I Inv) params0 d0 factors inv0 inputs states
         (n : nat),
    is_run p e (initial params0 d0 factors inv0) inputs states ->
    let t := (p_burnin p + n)%nat in
    exists x s,
      x_precond x = e_precond e (o_inv (states (S t))) /\
      s_params s = s_params (o_st (states t)) /\ s_vel s = s_vel (o_st (states t)) /\
      s_counter s = n /\
      apply_gradients (p_cfg p) x s (e_grads e (s_params (o_st (states t))) (i_batch (inputs t)))
      = Ok (o_st (states (S t))).
Proof.
  exact (fun Batch I Inv p e params0 d0 factors inv0 inputs states n RUN =>
    step_uses_inverse p e params0 d0 factors inv0 inputs states RUN n).
Qed.
Print Assumptions C02_step_uses_current_inverse.

(** A concrete well-behaved problem with burn-in 4, cov_update_every 2, invert_every 10. *)
Example C02_example :
  good_env w_env w_params 1 /\
  p_burnin (w_pcfg false) = 4%nat /\ p_cov_every (w_pcfg false) = 2%nat /\
  p_invert_every (w_pcfg false) = 10%nat /\
  (exists states, is_run (w_pcfg false) w_env (initial w_params 1 1 0) w_inputs states) /\
  multiples_below 2 7 = [0; 2; 4; 6]%nat.
Proof.
  split; [apply w_good|]. do 3 (split; [reflexivity|]). split; [apply w_run|reflexivity].
Qed.

(* ======================================================================= *)
(** ** C03 *)

(** The first num_burnin_steps executions leave parameters, velocities, damping,
    counter and every other scalar as they were, and after each of them the value of
    every factor is the plain average of the statistics seen so far. *)
Theorem C03_burnin_only_covariances :
  forall (Batch I Inv : Type) (p : pcfg) (e : env Batch I Inv) params0 d0 factors inv0 inputs states
         (t : nat),
    good_env e params0 factors ->
    is_run p e (initial params0 d0 factors inv0) inputs states ->
    (t <= p_burnin p)%nat ->
    o_st (states t) = o_st (states 0%nat) /\ o_inv (states t) = inv0 /\
    ((1 <= t)%nat -> forall f i, (f < factors)%nat ->
       mav_value (nth f (o_cov (states t)) (mav_init (fun _ => 0) true)) i
       = Some (mean_to t (fun u => stat_at e inputs states f u i))).
Proof.
  exact (fun Batch I Inv p e params0 d0 factors inv0 inputs states t GE RUN =>
    burnin_only_cov p e params0 d0 factors inv0 inputs states RUN GE t).
Qed.
Print Assumptions C03_burnin_only_covariances.

(** Every later execution is a full step: the counter grows by one each time, and
    burn-in never resumes. *)
Theorem C03_then_full_steps :
  forall (Batch I Inv : Type) (p : pcfg) (e : env Batch I Inv) params0 d0 factors inv0 inputs states
         (n : nat),
    is_run p e (initial params0 d0 factors inv0) inputs states ->
    o_burnin (states (p_burnin p + n)%nat) = p_burnin p /\
    s_counter (o_st (states (p_burnin p + n)%nat)) = n /\
    full_step p e (inputs (p_burnin p + n)%nat) (states (p_burnin p + n)%nat)
    = Ok (states (S (p_burnin p + n))).
Proof.
  exact (fun Batch I Inv p e params0 d0 factors inv0 inputs states n RUN =>
    full_phase p e params0 d0 factors inv0 inputs states RUN n).
Qed.
Print Assumptions C03_then_full_steps.

Example C03_example :
  exists states, is_run (w_pcfg true) w_env (initial w_params 1 1 0) w_inputs states /\
    (1 <= 3 <= p_burnin (w_pcfg true))%nat /\
    mav_value (nth 0 (o_cov (states 3%nat)) (mav_init (fun _ => 0) true)) tt
    = Some ((3 ^ 2 + 2 ^ 2 + 1 ^ 2) / 3).
Proof. exact w_burnin. Qed.

(* ======================================================================= *)
(** ** C29 *)

(** The constructor succeeds exactly on the legal configurations, and then returns
    the named momentum type and the learning rate (the rescaling factor, by default
    1, for the quadratic-model types). *)
Theorem C29_accepts_exactly_legal :
  forall a : args,
    ((exists vs t r, construct a = (vs, Ok (t, r))) <-> legal a /\ legal_estimator a) /\
    (forall vs t r, construct a = (vs, Ok (t, r)) ->
       ((lower (a_momentum_type a) = "regular"%string /\ t = Regular) \/
        (lower (a_momentum_type a) = "adam"%string /\ t = Adam) \/
        (lower (a_momentum_type a) = "qmodel"%string /\ t = Qmodel) \/
        (lower (a_momentum_type a) = "qmodel_fixedmu"%string /\ t = QmodelFixedMu)) /\
       (forall lr, a_learning_rate a = Some lr -> r = lr) /\
       (a_learning_rate a = None -> r = match a_rescale a with Some q => q | None => 1 end)).
Proof. exact ctor_accepts. Qed.
Print Assumptions C29_accepts_exactly_legal.

(** Every other configuration raises ValueError. *)
Theorem C29_rejects_with_value_error :
  forall a : args, ~ (legal a /\ legal_estimator a) ->
    exists vs, construct a = (vs, Raise ValueError).
Proof. exact ctor_rejects. Qed.
Print Assumptions C29_rejects_with_value_error.

(** "Before any variable is created" is false: with adapt_damping the damping
    variable exists before the learning rate is checked. *)
Theorem C29_rejects_before_variables_refuted :
  ~ (forall a vs e, construct a = (vs, Raise e) -> vs = []).
Proof.
  intros H. destruct vars_before_check as [a [vs [_ [_ [E N]]]]]. exact (N (H a vs _ E)).
Qed.
Print Assumptions C29_rejects_before_variables_refuted.

(** It holds without adapt_damping, for the optimizer's own checks.  Missing: the
    configurations with adapt_damping, and the checks of the estimator. *)
Theorem C29_rejects_before_variables_partial :
  forall a vs e, construct a = (vs, Raise e) -> a_adapt_damping a = false ->
    legal_estimator a -> vs = [].
Proof. exact raise_no_vars. Qed.
Print Assumptions C29_rejects_before_variables_partial.

Example C29_example :
  let a := mkArgs "Qmodel_FixedMu" (Some (9/10)) None None (Some 2) true false true None false false in
  legal a /\ legal_estimator a /\
  ~ legal (mkArgs "qmodel" None (Some 1) None None true true true None false false).
Proof.
  cbv zeta. split; [|split].
  - exists QmodelFixedMu. cbn. intuition (try discriminate; try congruence).
  - split; [left; reflexivity|discriminate].
  - intros [t [[[K _]|[[K _]|[[_ ->]|[K _]]]] [N _]]]; try discriminate K.
    cbn in N. destruct (N ltac:(discriminate)); discriminate.
Qed.

(* ======================================================================= *)
(** ** C30 *)

(** Regular momentum over any history: the velocity is the geometric sum of the
    clipped preconditioned gradients, and the parameters have moved by minus the
    learning rate times every velocity so far. *)
Theorem C30_regular_closed_form :
  forall (c : cfg) (h : list (ctx * pairs)) (s : st),
    c_mtype c = Regular -> good_history s h ->
    exists s', run_steps c s h = Ok s' /\ s_counter s' = (s_counter s + length h)%nat /\
    forall k j, (forall x g, In (x, g) h -> In k (map snd g)) ->
      coord j (s_vel s' k)
      = decayed (c_momentum c) (coord j (s_vel s k)) (coords k j (dirs_of c h)) /\
      (c_use_wd c = false ->
       coord j (s_params s' k) = coord j (s_params s k) - c_lr c *
         sum_to (length h) (fun i => decayed (c_momentum c) (coord j (s_vel s k))
                                       (firstn (S i) (coords k j (dirs_of c h))))).
Proof. exact (fun c h s M => regular_history c h M s). Qed.
Print Assumptions C30_regular_closed_form.

(** One regular step, with weight decay; variables without a gradient keep both. *)
Theorem C30_regular_step :
  forall (c : cfg) (x : ctx) (s : st) (g : pairs),
    c_mtype c = Regular -> well_shaped s g -> shape_preserving (x_precond x) ->
    shape_preserving (x_mult x) ->
    exists s', apply_gradients c x s g = Ok s' /\
    (forall k, ~ In k (map snd g) -> s_vel s' k = s_vel s k /\ s_params s' k = s_params s k) /\
    (forall k j, In k (map snd g) ->
       coord j (s_vel s' k) = c_momentum c * coord j (s_vel s k)
                              + entry_of k j (direction c g (x_precond x g)) /\
       coord j (s_params s' k) = coord j (s_params s k)
         - c_lr c * (coord j (s_vel s' k)
                     + if c_use_wd c then c_wd c * coord j (s_params s k) else 0)).
Proof. exact regular_step_short. Qed.
Print Assumptions C30_regular_step.

(** Without momentum: plain preconditioned descent. *)
Theorem C30_no_momentum :
  forall (c : cfg) (x : ctx) (s : st) (g : pairs),
    c_mtype c = Regular -> c_momentum c = 0 -> c_use_wd c = false ->
    well_shaped s g -> shape_preserving (x_precond x) -> shape_preserving (x_mult x) ->
    exists s', apply_gradients c x s g = Ok s' /\
    forall k j, In k (map snd g) ->
      coord j (s_params s' k) = coord j (s_params s k)
        - c_lr c * entry_of k j (direction c g (x_precond x g)).
Proof. exact regular_step_plain. Qed.
Print Assumptions C30_no_momentum.

(** Adam mode: velocities accumulate the raw gradients; each step moves by the
    preconditioned (clipped) velocities. *)
Theorem C30_adam_closed_form :
  forall (c : cfg) (h : list (ctx * pairs)) (s : st),
    c_mtype c = Adam -> good_history s h ->
    exists s', run_steps c s h = Ok s' /\ s_counter s' = (s_counter s + length h)%nat /\
    forall k j, (forall x g, In (x, g) h -> In k (map snd g)) ->
      coord j (s_vel s' k)
      = decayed (c_momentum c) (coord j (s_vel s k)) (coords k j (map snd h)).
Proof. exact (fun c h s M => adam_history c h M s). Qed.
Print Assumptions C30_adam_closed_form.

Theorem C30_adam_step :
  forall (c : cfg) (x : ctx) (s : st) (g : pairs),
    c_mtype c = Adam -> well_shaped s g -> shape_preserving (x_precond x) ->
    exists s', apply_gradients c x s g = Ok s' /\
    (forall k, ~ In k (map snd g) -> s_vel s' k = s_vel s k /\ s_params s' k = s_params s k) /\
    (forall k j, In k (map snd g) ->
       coord j (s_vel s' k) = c_momentum c * coord j (s_vel s k) + entry_of k j g /\
       coord j (s_params s' k) = coord j (s_params s k)
         - c_lr c * (entry_of k j (direction c (velocity_pairs s' (map snd g))
                                     (x_precond x (velocity_pairs s' (map snd g))))
                     + if c_use_wd c then c_wd c * coord j (s_params s k) else 0)).
Proof. exact adam_step_short. Qed.
Print Assumptions C30_adam_step.

Example C30_example :
  good_history o_state [(o_ctx, [([1], 0%nat)]); (o_ctx, [([2], 0%nat)])] /\
  decayed (1/2) 0 [1; 2] = 5/2.
Proof.
  split.
  - intros x g [H|[H|[]]]; injection H as <- <-; split; auto using o_shaped, o_good.
  - unfold decayed. cbn. field.
Qed.

(* ======================================================================= *)
(** ** C31 *)

(** The clipped update is [f * P g] with [0 < f <= 1] inside the trust region, and
    not scaled at all if the unclipped update already is. *)
Theorem C31_regular_clip :
  forall (c : cfg) (x : ctx) (s : st) (g : pairs) (nc : R),
    c_mtype c = Regular -> c_norm c = Some nc -> 0 < nc ->
    well_shaped s g -> shape_preserving (x_precond x) -> shape_preserving (x_mult x) ->
    0 <= inner (map fst g) (map fst (x_precond x g)) ->
    exists s' f, apply_gradients c x s g = Ok s' /\
      0 < f <= 1 /\
      c_lr c ^ 2 * f ^ 2 * inner (map fst g) (map fst (x_precond x g)) <= nc /\
      (c_lr c ^ 2 * inner (map fst g) (map fst (x_precond x g)) <= nc -> f = 1) /\
      (forall k j, In k (map snd g) ->
         coord j (s_vel s' k)
         = c_momentum c * coord j (s_vel s k) + f * entry_of k j (x_precond x g)).
Proof. exact regular_clip. Qed.
Print Assumptions C31_regular_clip.

(** In adam mode the velocities take the place of the gradients. *)
Theorem C31_adam_clip :
  forall (c : cfg) (x : ctx) (s : st) (g : pairs) (nc : R),
    c_mtype c = Adam -> c_norm c = Some nc -> 0 < nc -> c_use_wd c = false ->
    well_shaped s g -> shape_preserving (x_precond x) ->
    (forall l, 0 <= inner (map fst l) (map fst (x_precond x l))) ->
    exists s' f, apply_gradients c x s g = Ok s' /\
      let v := velocity_pairs s' (map snd g) in
      0 < f <= 1 /\
      c_lr c ^ 2 * f ^ 2 * inner (map fst v) (map fst (x_precond x v)) <= nc /\
      (c_lr c ^ 2 * inner (map fst v) (map fst (x_precond x v)) <= nc -> f = 1) /\
      (forall k j, In k (map snd g) ->
         coord j (s_params s' k)
         = coord j (s_params s k) - c_lr c * (f * entry_of k j (x_precond x v))).
Proof. exact adam_clip. Qed.
Print Assumptions C31_adam_clip.

(** An update outside the region is scaled onto its boundary. *)
Theorem C31_clip_is_tight :
  forall nc lr q : R, 0 < nc -> 0 <= q -> nc <= lr ^ 2 * q ->
    lr ^ 2 * clip_factor nc lr q ^ 2 * q = nc.
Proof.
  intros nc lr q P Q H. destruct (clip_factor_spec nc lr q P Q) as [_ [_ [_ T]]]. exact (T H).
Qed.
Print Assumptions C31_clip_is_tight.

Example C31_example :
  c_norm (o_cfg Regular (Some 1) false false) = Some 1 /\
  well_shaped o_state [([2], 0%nat)] /\
  0 <= inner (map fst [([2], 0%nat)]) (map fst (x_precond o_ctx [([2], 0%nat)])) /\
  ~ 1 ^ 2 * inner (map fst [([2], 0%nat)]) (map fst (x_precond o_ctx [([2], 0%nat)])) <= 1.
Proof.
  split; [reflexivity|]. split; [apply o_shaped|]. unfold inner, coord. cbn. lra.
Qed.

(* ======================================================================= *)
(** ** C32 *)

(** One adaptation follows the Levenberg-Marquardt rule. *)
Theorem C32_rule :
  forall (c : cfg) (x : ctx) (s : st) (before predicted : R),
    s_prev_loss s = Some before -> s_qchange s = Some predicted ->
    lm_rule c (s_damping s)
      ((if c_immediate c then x_loss_fn x (s_params s) else x_prev_loss_fn x (s_params s)) - before)
      predicted (s_damping (update_damping c x s)).
Proof. exact update_damping_rule. Qed.
Print Assumptions C32_rule.

(** Over any run that adapts immediately: after [n] full steps there were
    [n / interval] adaptations; the damping is within that many factors [w] of where
    it started, unless floored, and not below the floor once it was adapted. *)
Theorem C32_bounds_immediate :
  forall (Batch I Inv : Type) (p : pcfg) (e : env Batch I Inv) params0 d0 factors inv0 inputs states
         (n : nat),
    is_run p e (initial params0 d0 factors inv0) inputs states ->
    let c := p_cfg p in
    let w := c_decay c ^ c_interval c in
    let floor := c_min_damping c + c_l2 c in
    let k := (n / c_interval c)%nat in
    let d := s_damping (o_st (states (p_burnin p + n)%nat)) in
    c_adapt c = true -> c_immediate c = true -> (1 <= c_interval c)%nat -> 0 < w <= 1 -> 0 < d0 ->
    0 < d /\ d0 * w ^ k <= d <= Rmax d0 floor / w ^ k /\ ((1 <= k)%nat -> floor <= d).
Proof.
  exact (fun Batch I Inv p e params0 d0 factors inv0 inputs states n RUN =>
    immediate_bounds p e params0 d0 factors inv0 inputs states RUN n).
Qed.
Print Assumptions C32_bounds_immediate.

(** The same for the delayed mode, where the [n+1]-st full step is the first to see
    the adaptation that belongs to the first [n]. *)
Theorem C32_bounds_delayed :
  forall (Batch I Inv : Type) (p : pcfg) (e : env Batch I Inv) params0 d0 factors inv0 inputs states
         (n : nat),
    is_run p e (initial params0 d0 factors inv0) inputs states ->
    let c := p_cfg p in
    let w := c_decay c ^ c_interval c in
    let floor := c_min_damping c + c_l2 c in
    let k := (n / c_interval c)%nat in
    let d := s_damping (o_st (states (S (p_burnin p + n)))) in
    c_adapt c = true -> c_immediate c = false -> c_chief c = true -> (1 <= c_interval c)%nat ->
    0 < w <= 1 -> 0 < d0 ->
    0 < d /\ d0 * w ^ k <= d <= Rmax d0 floor / w ^ k /\ ((1 <= k)%nat -> floor <= d).
Proof.
  exact (fun Batch I Inv p e params0 d0 factors inv0 inputs states n RUN =>
    delayed_bounds p e params0 d0 factors inv0 inputs states RUN n).
Qed.
Print Assumptions C32_bounds_delayed.

Example C32_example :
  (exists states, is_run (w_pcfg true) w_env (initial w_params 1 1 0) w_inputs states) /\
  (exists states, is_run (w_pcfg false) w_env (initial w_params 1 1 0) w_inputs states) /\
  c_adapt (w_cfg true) = true /\ c_chief (w_cfg false) = true /\
  0 < c_decay (w_cfg true) ^ c_interval (w_cfg true) <= 1.
Proof.
  split; [apply w_run|]. split; [apply w_run|]. split; [reflexivity|]. split; [reflexivity|].
  cbn. lra.
Qed.

(* ======================================================================= *)
(** ** C33 *)

(** Immediate mode: the damping changes in exactly the executions after which the
    counter is a multiple of the interval, and there compares the loss of that
    execution's batch before and after that execution's update. *)
Theorem C33_immediate_timing :
  forall (Batch I Inv : Type) (p : pcfg) (e : env Batch I Inv) params0 d0 factors inv0 inputs states
         (n : nat),
    is_run p e (initial params0 d0 factors inv0) inputs states ->
    let c := p_cfg p in
    let t := (p_burnin p + n)%nat in
    let loss u := e_loss e (i_batch (inputs t)) (s_params (o_st (states u))) in
    c_adapt c = true -> c_immediate c = true ->
    if Nat.eqb (Nat.modulo (S n) (c_interval c)) 0
    then match s_qchange (o_st (states (S t))) with
         | Some q => lm_rule c (s_damping (o_st (states t))) (loss (S t) - loss t) q
                       (s_damping (o_st (states (S t))))
         | None => s_damping (o_st (states (S t)))
                   = Rmax (s_damping (o_st (states t))) (c_min_damping c + c_l2 c)
         end
    else s_damping (o_st (states (S t))) = s_damping (o_st (states t)).
Proof.
  exact (fun Batch I Inv p e params0 d0 factors inv0 inputs states n RUN =>
    immediate_step p e params0 d0 factors inv0 inputs states RUN n).
Qed.
Print Assumptions C33_immediate_timing.

(** Delayed mode: the damping changes in exactly the executions that start with a
    counter that is a positive multiple of the interval, and there compares the loss
    of the previous batch before and after the previous update with the prediction
    recorded by that update. *)
Theorem C33_delayed_timing :
  forall (Batch I Inv : Type) (p : pcfg) (e : env Batch I Inv) params0 d0 factors inv0 inputs states
         (n : nat),
    is_run p e (initial params0 d0 factors inv0) inputs states ->
    let c := p_cfg p in
    let t := (p_burnin p + n)%nat in
    let loss u := e_loss e (i_batch (inputs (t - 1)%nat)) (s_params (o_st (states u))) in
    c_adapt c = true -> c_immediate c = false -> c_chief c = true -> (1 <= c_interval c)%nat ->
    (forall u, i_prev (inputs (S u)) = i_batch (inputs u)) ->
    match n with
    | O => s_damping (o_st (states (S t))) = s_damping (o_st (states t))
    | S _ =>
        if Nat.eqb (Nat.modulo n (c_interval c)) 0
        then match s_qchange (o_st (states t)) with
             | Some q => lm_rule c (s_damping (o_st (states t))) (loss t - loss (t - 1)%nat) q
                           (s_damping (o_st (states (S t))))
             | None => s_damping (o_st (states (S t)))
                       = Rmax (s_damping (o_st (states t))) (c_min_damping c + c_l2 c)
             end
        else s_damping (o_st (states (S t))) = s_damping (o_st (states t))
    end.
Proof.
  exact (fun Batch I Inv p e params0 d0 factors inv0 inputs states n RUN =>
    delayed_step p e params0 d0 factors inv0 inputs states RUN n).
Qed.
Print Assumptions C33_delayed_timing.

(** Without adapt_damping, and on the workers that are not chief in delayed mode, the
    damping never changes. *)
Theorem C33_no_adaptation :
  forall (Batch I Inv : Type) (p : pcfg) (e : env Batch I Inv) params0 d0 factors inv0 inputs states
         (n : nat),
    is_run p e (initial params0 d0 factors inv0) inputs states ->
    c_adapt (p_cfg p) = false \/ (c_immediate (p_cfg p) = false /\ c_chief (p_cfg p) = false) ->
    s_damping (o_st (states (p_burnin p + n)%nat)) = d0.
Proof.
  exact (fun Batch I Inv p e params0 d0 factors inv0 inputs states n RUN =>
    no_adaptation p e params0 d0 factors inv0 inputs states RUN n).
Qed.
Print Assumptions C33_no_adaptation.

(** "The model change predicted for that update" is false with weight decay: the
    prediction leaves the decay term out. *)
Theorem C33_prediction_matches_update_refuted :
  exists c x s g s' q,
    c_mtype c = Regular /\ c_adapt c = true /\ c_chief c = true /\
    Nat.modulo (S (s_counter s)) (c_interval c) = 0%nat /\ 0 < s_damping s /\
    well_shaped s g /\ good_ctx x g /\
    apply_gradients c x s g = Ok s' /\ s_qchange s' = Some q /\
    q <> approx_quad (x_mult x) (removed_damping c s) (map snd g) (map fst g)
           (displacement (map snd g) (s_params s) (s_params s')).
Proof. exact prediction_weight_decay. Qed.
Print Assumptions C33_prediction_matches_update_refuted.

(** In adam mode it is false with clipping, and with the default that leaves the
    damping out of the model change. *)
Theorem C33_prediction_clipped_adam_refuted :
  exists c x s g s' q,
    c_mtype c = Adam /\ c_use_wd c = false /\ c_incl c = true /\ c_adapt c = true /\
    c_chief c = true /\ Nat.modulo (S (s_counter s)) (c_interval c) = 0%nat /\ 0 < s_damping s /\
    well_shaped s g /\ good_ctx x g /\
    (forall a l, x_mult x (map (fun p => (map (Rmult a) (fst p), snd p)) (x_precond x l))
                 = map (fun p => (map (Rmult a) (fst p), snd p)) l) /\
    apply_gradients c x s g = Ok s' /\ s_qchange s' = Some q /\
    q <> approx_quad (x_mult x) (removed_damping c s) (map snd g) (map fst g)
           (displacement (map snd g) (s_params s) (s_params s')).
Proof. exact prediction_clipped_adam. Qed.
Print Assumptions C33_prediction_clipped_adam_refuted.

Theorem C33_prediction_default_adam_refuted :
  exists c x s g s' q,
    c_mtype c = Adam /\ c_use_wd c = false /\ c_norm c = None /\ c_incl c = false /\
    c_adapt c = true /\ c_chief c = true /\
    Nat.modulo (S (s_counter s)) (c_interval c) = 0%nat /\ 0 < s_damping s /\
    well_shaped s g /\ good_ctx x g /\
    (forall a l, x_mult x (map (fun p => (map (Rmult a) (fst p), snd p)) (x_precond x l))
                 = map (fun p => (map (Rmult a) (fst p), snd p)) l) /\
    apply_gradients c x s g = Ok s' /\ s_qchange s' = Some q /\
    q <> approx_quad (x_mult x) (removed_damping c s) (map snd g) (map fst g)
           (displacement (map snd g) (s_params s) (s_params s')).
Proof. exact prediction_default_adam. Qed.
Print Assumptions C33_prediction_default_adam_refuted.

(** In regular mode without weight decay the recorded prediction is the value of the
    approximate quadratic model at the displacement that was applied.  Missing:
    weight decay. *)
Theorem C33_prediction_regular_partial :
  forall (c : cfg) (x : ctx) (s : st) (g : pairs) (s' : st),
    c_mtype c = Regular -> well_shaped s g -> good_ctx x g -> c_use_wd c = false ->
    c_adapt c = true -> c_chief c = true ->
    Nat.modulo (S (s_counter s)) (c_interval c) = 0%nat -> s_damping s <> 0 ->
    apply_gradients c x s g = Ok s' ->
    s_qchange s' = Some (approx_quad (x_mult x) (removed_damping c s) (map snd g) (map fst g)
                           (displacement (map snd g) (s_params s) (s_params s'))).
Proof. exact regular_prediction_mod. Qed.
Print Assumptions C33_prediction_regular_partial.

(** In adam mode it is, when in addition there is no clipping, the damping is part of
    the model change, and the curvature inverts the preconditioner.  Missing: the
    cases refuted above. *)
Theorem C33_prediction_adam_partial :
  forall (c : cfg) (x : ctx) (s : st) (g : pairs) (s' : st),
    c_mtype c = Adam -> well_shaped s g -> good_ctx x g -> c_use_wd c = false ->
    c_norm c = None -> c_incl c = true ->
    (forall a l, x_mult x (map (fun p => (map (Rmult a) (fst p), snd p)) (x_precond x l))
                 = map (fun p => (map (Rmult a) (fst p), snd p)) l) ->
    c_adapt c = true -> c_chief c = true ->
    Nat.modulo (S (s_counter s)) (c_interval c) = 0%nat ->
    apply_gradients c x s g = Ok s' ->
    s_qchange s' = Some (approx_quad (x_mult x) (removed_damping c s) (map snd g) (map fst g)
                           (displacement (map snd g) (s_params s) (s_params s'))).
Proof. exact adam_prediction. Qed.
Print Assumptions C33_prediction_adam_partial.

Example C33_example :
  (exists states, is_run (w_pcfg false) w_env (initial w_params 1 1 0) w_inputs states) /\
  (forall u, i_prev (w_inputs (S u)) = i_batch (w_inputs u)) /\
  well_shaped o_state [([2], 0%nat)] /\ good_ctx o_ctx [([2], 0%nat)] /\
  Nat.modulo (S (s_counter o_state)) (c_interval (o_cfg Adam None false true)) = 0%nat /\
  (exists s', apply_gradients (o_cfg Adam None false true) o_ctx o_state [([2], 0%nat)] = Ok s').
Proof.
  split; [apply w_run|]. split.
  - intros u. unfold w_inputs. cbn [i_prev i_batch]. f_equal. lia.
  - split; [apply o_shaped|]. split; [apply o_good|]. split; [reflexivity|]. eexists. reflexivity.
Qed.

(* ======================================================================= *)
(** ** C34 *)

(** Unless the gradient is orthogonal to the previous update, the step sizes of
    qmodel mode minimise the damped quadratic model over the span of the
    preconditioned gradient and the previous update; the step is that minimiser times
    the rescaling factor; the reported change is the model value at the applied step
    (with the documented damping) and not positive.  Missing: see C34_refuted. *)
Theorem C34_qmodel_optimal_partial :
  forall (c : cfg) (x : ctx) (s : st) (g : pairs),
    well_shaped s g -> good_ctx x g -> qmodel_lr c -> s_damping s <> 0 -> c_use_wd c = false ->
    c_mtype c = Qmodel ->
    let pg := map fst (x_precond x g) in
    let prev := previous_update s (map snd g) in
    let Q := quad (x_mft x) (c_batch_size c) (s_damping s) (map fst g) in
    let Qr := quad (x_mft x) (c_batch_size c) (reported_lambda c s) (map fst g) in
    inner (map fst g) prev <> 0 ->
    (forall a u, a <> 0 \/ u <> 0 ->
       0 < curvature (x_mft x) (c_batch_size c) (s_damping s) (comb a pg u prev)) ->
    exists s' alpha mu, apply_gradients c x s g = Ok s' /\
      s_qlr s' = Some (- alpha) /\ s_qmom s' = Some mu /\
      (forall a u, Q (comb alpha pg mu prev) <= Q (comb a pg u prev)) /\
      displacement (map snd g) (s_params s) (s_params s')
        = comb (c_lr c * alpha) pg (c_lr c * mu) prev /\
      s_qchange s' = Some (Qr (displacement (map snd g) (s_params s) (s_params s'))) /\
      (0 <= c_lr c <= 2 -> 0 < s_damping s -> c_l2 c <= s_damping s ->
       Qr (displacement (map snd g) (s_params s) (s_params s')) <= 0).
Proof. exact qmodel_free. Qed.
Print Assumptions C34_qmodel_optimal_partial.

(** The same with a fixed momentum: the step size minimises along the preconditioned
    gradient. *)
Theorem C34_qmodel_fixedmu_optimal_partial :
  forall (c : cfg) (x : ctx) (s : st) (g : pairs),
    well_shaped s g -> good_ctx x g -> qmodel_lr c -> s_damping s <> 0 -> c_use_wd c = false ->
    c_mtype c = QmodelFixedMu ->
    let pg := map fst (x_precond x g) in
    let prev := previous_update s (map snd g) in
    let Q := quad (x_mft x) (c_batch_size c) (s_damping s) (map fst g) in
    let Qr := quad (x_mft x) (c_batch_size c) (reported_lambda c s) (map fst g) in
    inner (map fst g) prev <> 0 ->
    0 < curvature (x_mft x) (c_batch_size c) (s_damping s) pg ->
    exists s' alpha, apply_gradients c x s g = Ok s' /\
      s_qlr s' = Some (- alpha) /\ s_qmom s' = Some (c_momentum c) /\
      (forall a, Q (comb alpha pg (c_momentum c) prev) <= Q (comb a pg (c_momentum c) prev)) /\
      displacement (map snd g) (s_params s) (s_params s')
        = comb (c_lr c * alpha) pg (c_lr c * c_momentum c) prev /\
      s_qchange s' = Some (Qr (displacement (map snd g) (s_params s) (s_params s'))).
Proof. exact qmodel_fixed. Qed.
Print Assumptions C34_qmodel_fixedmu_optimal_partial.

(** When the gradient is orthogonal to a non-zero previous update, the step of qmodel
    mode is not optimal on the span, although the model is strictly convex there. *)
Theorem C34_qmodel_optimal_refuted :
  exists c x s g s',
    c_mtype c = Qmodel /\ c_use_wd c = false /\ qmodel_lr c /\ 0 < s_damping s /\
    well_shaped s g /\ good_ctx x g /\
    (forall a u, a <> 0 \/ u <> 0 -> 0 < curvature (x_mft x) (c_batch_size c) (s_damping s)
        (comb a (map fst (x_precond x g)) u (previous_update s (map snd g)))) /\
    apply_gradients c x s g = Ok s' /\
    exists a u,
      quad (x_mft x) (c_batch_size c) (s_damping s) (map fst g)
        (comb a (map fst (x_precond x g)) u (previous_update s (map snd g)))
      < quad (x_mft x) (c_batch_size c) (s_damping s) (map fst g)
          (displacement (map snd g) (s_params s) (s_params s')).
Proof. exact q_not_optimal. Qed.
Print Assumptions C34_qmodel_optimal_refuted.

Example C34_example :
  well_shaped (q_st [1; -1]) q_g /\ good_ctx q_ctx q_g /\ qmodel_lr (q_cfg Qmodel) /\
  inner (map fst q_g) (previous_update (q_st [1; -1]) (map snd q_g)) <> 0 /\
  (forall a u, a <> 0 \/ u <> 0 -> 0 < curvature (x_mft q_ctx) 1 1
      (comb a (map fst (x_precond q_ctx q_g)) u (previous_update (q_st [1; -1]) (map snd q_g)))).
Proof.
  destruct q_instance as [A [B [C D]]]. repeat (split; [assumption || reflexivity|]). exact D.
Qed.

(* ======================================================================= *)
(** ** C35 *)

(** The shortcut is also taken when the previous update is not zero; then, with a
    fixed momentum, the predicted change is not the model value of the applied step
    and a better step size exists. *)
Theorem C35_prediction_matches_step_refuted :
  exists c x s g s' q,
    c_mtype c = QmodelFixedMu /\ c_use_wd c = false /\ qmodel_lr c /\ 0 < s_damping s /\
    well_shaped s g /\ good_ctx x g /\
    (forall a u, a <> 0 \/ u <> 0 -> 0 < curvature (x_mft x) (c_batch_size c) (s_damping s)
        (comb a (map fst (x_precond x g)) u (previous_update s (map snd g)))) /\
    apply_gradients c x s g = Ok s' /\ s_qchange s' = Some q /\
    q <> quad (x_mft x) (c_batch_size c) (reported_lambda c s) (map fst g)
           (displacement (map snd g) (s_params s) (s_params s')) /\
    exists a,
      quad (x_mft x) (c_batch_size c) (s_damping s) (map fst g)
        (comb a (map fst (x_precond x g)) (c_momentum c) (previous_update s (map snd g)))
      < quad (x_mft x) (c_batch_size c) (s_damping s) (map fst g)
          (displacement (map snd g) (s_params s) (s_params s')).
Proof. exact q_wrong_prediction. Qed.
Print Assumptions C35_prediction_matches_step_refuted.

(** When the previous update is zero the shortcut is right in both modes: no step
    size does better, and the prediction is the model value of the applied step. *)
Theorem C35_zero_previous_update_partial :
  forall (c : cfg) (x : ctx) (s : st) (g : pairs),
    well_shaped s g -> good_ctx x g -> qmodel_lr c -> s_damping s <> 0 -> c_use_wd c = false ->
    c_mtype c = Qmodel \/ c_mtype c = QmodelFixedMu ->
    let pg := map fst (x_precond x g) in
    let prev := previous_update s (map snd g) in
    let Q := quad (x_mft x) (c_batch_size c) (s_damping s) (map fst g) in
    let Qr := quad (x_mft x) (c_batch_size c) (reported_lambda c s) (map fst g) in
    0 < curvature (x_mft x) (c_batch_size c) (s_damping s) (comb 1 pg 0 prev) ->
    (forall k, In k (map snd g) -> forall j, coord j (s_vel s k) = 0) ->
    exists s' alpha, apply_gradients c x s g = Ok s' /\
      s_qlr s' = Some (- alpha) /\
      (forall a u v, Q (comb alpha pg v prev) <= Q (comb a pg u prev)) /\
      displacement (map snd g) (s_params s) (s_params s') = comb (c_lr c * alpha) pg 0 prev /\
      s_qchange s' = Some (Qr (displacement (map snd g) (s_params s) (s_params s'))).
Proof. exact qmodel_zero_prev. Qed.
Print Assumptions C35_zero_previous_update_partial.

(** In qmodel mode (free momentum) the prediction is the model value of the applied
    step on both branches. *)
Theorem C35_qmodel_prediction_partial :
  forall (c : cfg) (x : ctx) (s : st) (g : pairs),
    well_shaped s g -> good_ctx x g -> qmodel_lr c -> s_damping s <> 0 -> c_use_wd c = false ->
    c_mtype c = Qmodel ->
    (forall a u, a <> 0 \/ u <> 0 ->
       0 < curvature (x_mft x) (c_batch_size c) (s_damping s)
             (comb a (map fst (x_precond x g)) u (previous_update s (map snd g)))) ->
    exists s', apply_gradients c x s g = Ok s' /\
      s_qchange s' = Some (quad (x_mft x) (c_batch_size c) (reported_lambda c s) (map fst g)
                             (displacement (map snd g) (s_params s) (s_params s'))).
Proof. exact qmodel_free_predicts. Qed.
Print Assumptions C35_qmodel_prediction_partial.

Example C35_example :
  well_shaped (q_st [0; 0]) q_g /\ good_ctx q_ctx q_g /\
  0 < curvature (x_mft q_ctx) 1 1
        (comb 1 (map fst (x_precond q_ctx q_g)) 0 (previous_update (q_st [0; 0]) (map snd q_g))) /\
  (forall k, In k (map snd q_g) -> forall j, coord j (s_vel (q_st [0; 0]) k) = 0).
Proof.
  split; [apply q_shaped|]. split; [apply q_good|]. split.
  - unfold curvature, inner, previous_update, coord. cbn. lra.
  - intros k _ j. unfold coord. cbn. destruct j as [|[|[|j]]]; reflexivity.
Qed.
