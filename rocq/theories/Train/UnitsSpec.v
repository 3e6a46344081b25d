(** Vocabulary of property C120: the same training, with the loss measured in
    another unit. *)
From Coq Require Import List Arith Bool Reals.
From Verif.Base Require Import Py.
From Verif.Tensors Require Import Model.
From Verif.Train Require Import Model Spec.
Import ListNotations.
Open Scope list_scope.
Open Scope R_scope.

(** The options that are quantities of loss are multiplied by [k]: the norm
    constraint, min_damping and l2_reg. *)
Definition units_cfg (k : R) (c : cfg) : cfg :=
  mkCfg (c_mtype c) (c_lr c) (c_momentum c) (option_map (Rmult k) (c_norm c))
        (c_use_wd c) (c_wd c) (c_rescale c) (c_batch_size c) (c_adapt c) (c_immediate c)
        (c_chief c) (c_passed c) (c_decay c) (c_interval c) (k * c_min_damping c) (k * c_l2 c)
        (c_dec c) (c_inc c) (c_incl c).

Definition units_pcfg (k : R) (p : pcfg) : pcfg :=
  mkP (units_cfg k (p_cfg p)) (p_invert_every p) (p_cov_every p) (p_burnin p) (p_ema p).

(** The state in the other unit: the same parameters, reduction ratio, learning rate and
    momentum of the quadratic model and counter; the damping, the remembered loss and the
    predicted change are [k] times as large; and so are the velocities where they
    average gradients (momentum type "adam"). *)
Definition units_state (k : R) (c : cfg) (s : st) : st :=
  mkSt (s_params s)
       (match c_mtype c with Adam => fun j => vscale k (s_vel s j) | _ => s_vel s end)
       (k * s_damping s) (s_rho s) (option_map (Rmult k) (s_prev_loss s)) (s_qlr s) (s_qmom s)
       (option_map (Rmult k) (s_qchange s)) (s_counter s).

(** What a step sees of the rest of the library in the other unit: losses and curvature are
    [k] times as large, a factor of the curvature [sqrt k] times, and the inverse of the
    curvature turns a gradient that is [k] times as large into the same direction. *)
Definition units_ctx (k : R) (x x' : ctx) : Prop :=
  (forall g, x_precond x' (sprod_p k g) = x_precond x g) /\
  (forall u, x_mult x' u = sprod_p k (x_mult x u)) /\
  (forall u, x_mft x' u = sprod (sqrt k) (x_mft x u)) /\
  x_loss x' = k * x_loss x /\
  (forall p, x_loss_fn x' p = k * x_loss_fn x p) /\
  (forall p, x_prev_loss_fn x' p = k * x_prev_loss_fn x p).

(** The same result, or the same exception. *)
Definition res_map {A B} (f : A -> B) (r : res A) : res B :=
  match r with Ok a => Ok (f a) | Raise e => Raise e end.

(** Covariances in the other unit: the [f]-th is [nth f ws 0] times as large (1 for those
    of layer inputs, [k] for those that hold gradients). *)
Definition units_cov {I} (ws : list R) (cov : list (mav I)) : list (mav I) :=
  map (fun p => mkMav (fun i => fst p * m_var (snd p) i) (m_weight (snd p)) (m_norm (snd p)))
      (zip ws cov).

(** Inverses that do the same in either unit. *)
Definition units_inv {Batch I Inv} (k : R) (ws : list R) (e e' : env Batch I Inv)
    (inv inv' : Inv) : Prop :=
  (forall g, e_precond e' inv' (sprod_p k g) = e_precond e inv g) /\
  (forall cov damping u,
     e_mult e' (units_cov ws cov) inv' (k * damping) u = sprod_p k (e_mult e cov inv damping u)).

(** The same model and data with the loss in the other unit: loss and gradients are [k] times
    as large, and inverting the covariances in the other unit with [k] times the damping gives
    inverses that do the same. *)
Definition units_env {Batch I Inv} (k : R) (ws : list R) (e e' : env Batch I Inv) : Prop :=
  (forall params b, e_grads e' params b = sprod_p k (e_grads e params b)) /\
  (forall b params, e_loss e' b params = k * e_loss e b params) /\
  (forall params b, e_stats e' params b =
     map (fun p => fun i => fst p * snd p i) (zip ws (e_stats e params b))) /\
  (forall params b u, e_mft e' params b u = sprod (sqrt k) (e_mft e params b u)) /\
  (forall cov damping,
     units_inv k ws e e' (e_invert e cov damping) (e_invert e' (units_cov ws cov) (k * damping))).
