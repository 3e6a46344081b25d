(** Property theorems C120 (the optimizer's part): the unit in which the loss is measured
    does not matter. *)
From Coq Require Import List Arith Bool Reals Lra Lia FunctionalExtensionality.
From Verif.Base Require Import Py.
From Verif.Tensors Require Import Model.
From Verif.Train Require Import Model Spec VecProofs UnitsSpec UnitsProofs.
Import ListNotations.
Open Scope list_scope.
Open Scope R_scope.

(** One call of apply_gradients, for every momentum type and every option: with the loss and
    the options that are quantities of loss [k] times as large, the call leaves the same
    parameters, ratio, counter and quadratic-model learning rate and momentum, and [k] times
    the damping; or it raises the same exception. *)
Theorem C120_step : forall k c x x' s g,
  0 < k -> units_ctx k x x' ->
  apply_gradients (units_cfg k c) x' (units_state k c s) (sprod_p k g)
  = res_map (units_state k c) (apply_gradients c x s g).
Proof. exact (fun k c x x' s g K H => units_step k K c x x' s g H). Qed.
Print Assumptions C120_step.

(** Any sequence of calls. *)
Theorem C120_steps : forall k c s l l',
  0 < k ->
  Forall2 (fun a b => units_ctx k (fst a) (fst b) /\ snd b = sprod_p k (snd a)) l l' ->
  run_steps (units_cfg k c) (units_state k c s) l' = res_map (units_state k c) (run_steps c s l).
Proof. exact (fun k c s l l' K H => units_steps k K c l l' s H). Qed.
Print Assumptions C120_steps.

(** Training with the periodic optimizer: covariances, inverses, damping and parameters all
    evolve together, and after any number of executions the parameters are the same.  The
    initial contents of the inverses do not matter. *)
Theorem C120_training :
  forall (Batch I Inv : Type) k ws (p : pcfg) (e e' : env Batch I Inv) params0 d0 factors
         inv0 inv0' inputs states states',
  0 < k -> units_env k ws e e' -> length ws = factors ->
  is_run p e (initial params0 d0 factors inv0) inputs states ->
  is_run (units_pcfg k p) e' (initial params0 (k * d0) factors inv0') inputs states' ->
  forall t,
    s_params (o_st (states' t)) = s_params (o_st (states t)) /\
    s_damping (o_st (states' t)) = k * s_damping (o_st (states t)) /\
    s_rho (o_st (states' t)) = s_rho (o_st (states t)) /\
    s_counter (o_st (states' t)) = s_counter (o_st (states t)) /\
    o_cov (states' t) = units_cov ws (o_cov (states t)).
Proof.
  intros Batch I Inv k ws p e e' params0 d0 factors inv0 inv0' inputs states states' K E LW RUN RUN' t.
  destruct (units_run Batch I Inv k ws p e e' K E params0 d0 factors inv0 inv0' inputs states LW RUN)
    as (st' & R' & REL).
  assert (D : states' t = st' t).
  { clear REL. destruct RUN' as [A B], R' as [A' B'].
    induction t as [|t IH]; [rewrite A, A'; reflexivity|].
    assert (Q : Ok (states' (S t)) = Ok (st' (S t))) by (rewrite <- B, <- B', IH; reflexivity).
    injection Q as Q. exact Q. }
  rewrite D. destruct (REL t) as [R1 R2 _ _]. rewrite R1, R2. cbn. repeat split; reflexivity.
Qed.
Print Assumptions C120_training.

(** And if training does not raise in one unit, it does not in the other. *)
Theorem C120_training_goes_on :
  forall (Batch I Inv : Type) k ws (p : pcfg) (e e' : env Batch I Inv) params0 d0 factors
         inv0 inv0' inputs states,
  0 < k -> units_env k ws e e' -> length ws = factors ->
  is_run p e (initial params0 d0 factors inv0) inputs states ->
  exists states', is_run (units_pcfg k p) e' (initial params0 (k * d0) factors inv0') inputs states'.
Proof.
  intros Batch I Inv k ws p e e' params0 d0 factors inv0 inv0' inputs states K E LW RUN.
  destruct (units_run Batch I Inv k ws p e e' K E params0 d0 factors inv0 inv0' inputs states LW RUN)
    as (st' & R' & _).
  exists st'. exact R'.
Qed.
Print Assumptions C120_training_goes_on.

(** The hypotheses are met: half the square of one parameter as the loss, its squared gradient
    as the only covariance, inverted with the damping. *)
Definition unit_env (k : R) : env nat unit R :=
  mkEnv (fun params _ => [(vscale k (params 0%nat), 0%nat)])
        (fun _ params => k * (1/2 * coord 0 (params 0%nat) ^ 2))
        (fun params _ => [fun _ => k * coord 0 (params 0%nat) ^ 2])
        (fun cov damping => match cov with m :: _ => m_var m tt + damping | [] => damping end)
        (fun inv l => sprod_p (/ inv) l)
        (fun _ inv _ l => sprod_p inv l)
        (fun _ _ u => sprod (sqrt k) u).

Lemma sprod_p_mul a b l : sprod_p a (sprod_p b l) = sprod_p (a * b) l.
Proof.
  unfold sprod_p. rewrite map_map. apply map_ext. intros [v j]. cbn [fst snd].
  rewrite vscale_mul. reflexivity.
Qed.
Lemma sprod_mul a b l : sprod a (sprod b l) = sprod (a * b) l.
Proof. unfold sprod. rewrite map_map. apply map_ext. intros v. apply vscale_mul. Qed.

Example C120_units_met : units_env 4 [4] (unit_env 1) (unit_env 4).
Proof.
  split; [|split; [|split; [|split]]].
  - intros params b. cbn [unit_env e_grads]. unfold sprod_p. cbn [map fst snd].
    rewrite vscale_mul, Rmult_1_r. reflexivity.
  - intros b params. cbn [unit_env e_loss]. ring.
  - intros params b. cbn [unit_env e_stats zip map fst snd]. f_equal.
    apply functional_extensionality. intros i. ring.
  - intros params b u. cbn [unit_env e_mft]. rewrite sprod_mul, sqrt_1, Rmult_1_r. reflexivity.
  - intros cov d. cbn [unit_env e_invert].
    assert (Q : match units_cov [4] cov with m :: _ => m_var m tt + 4 * d | [] => 4 * d end
              = 4 * match cov with m :: _ => m_var m tt + d | [] => d end).
    { destruct cov as [|m cov]; [reflexivity|]. cbn. ring. }
    rewrite Q. set (q := match cov with m :: _ => m_var m tt + d | [] => d end). split.
    + intros g. cbn [unit_env e_precond]. rewrite sprod_p_mul, Rinv_mult. f_equal. lra.
    + intros co dd u. cbn [unit_env e_mult]. rewrite sprod_p_mul. reflexivity.
Qed.

(** The scaling of the damping is needed: if only the loss is multiplied, the first step
    differs.  (One parameter 1, gradient 1, covariance 1, damping 1: the step goes to 1/2, with
    loss and covariance multiplied by 4 to 1/5.) *)
Definition unit_pcfg : pcfg :=
  mkP (mkCfg Regular 1 0 None false 0 None 1 false false true true 1 1 0 0 0 0 false) 1 1 0 1.
Example C120_damping_must_follow :
  exists s s',
    minimize unit_pcfg (unit_env 1) (initial (fun _ => [1]) 1 1 0) (mkIn 0%nat 0%nat true) = Ok s /\
    minimize unit_pcfg (unit_env 4) (initial (fun _ => [1]) 1 1 0) (mkIn 0%nat 0%nat true) = Ok s' /\
    s_params (o_st s) 0%nat = [1/2] /\ s_params (o_st s') 0%nat = [1/5].
Proof.
  eexists. eexists. split; [reflexivity|]. split; [reflexivity|].
  split; cbn; unfold coord; cbn [nth]; f_equal; field.
Qed.
