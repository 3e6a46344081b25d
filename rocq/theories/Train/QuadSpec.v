(** Vocabulary of property C117: losses that are exactly quadratic along the
    directions a step can take. *)
From Coq Require Import List Arith Bool Reals.
From Verif.Base Require Import Py.
From Verif.Train Require Import Model Spec.
Import ListNotations.
Open Scope list_scope.
Open Scope R_scope.

(** Around [p] the loss is the quadratic function with the gradients [g], the
    curvature J J^T / n (where [mft] multiplies by J^T) and an l2 term [l2]: its
    change is the value of the quadratic model, wherever the variables of [g]
    are moved. *)
Definition quadratic_at (loss : (nat -> vec) -> R) (mft : list vec -> list vec) (n l2 : R)
    (p : nat -> vec) (g : pairs) : Prop :=
  forall p', (forall k, length (p' k) = length (p k)) ->
    (forall k, ~ In k (map snd g) -> p' k = p k) ->
    loss p' - loss p = quad mft n l2 (map fst g) (displacement (map snd g) p p').

(** The damped curvature is positive along what the step optimises over: the
    line of the preconditioned gradient [pg] if the gradient [gs] is orthogonal
    to the previous update [prev], else the plane of the two. *)
Definition solvable (mft : list vec -> list vec) (n lambda : R) (gs pg prev : list vec) : Prop :=
  (inner gs prev = 0 /\ 0 < curvature mft n lambda (comb 1 pg 0 prev)) \/
  (inner gs prev <> 0 /\
   forall a u, a <> 0 \/ u <> 0 -> 0 < curvature mft n lambda (comb a pg u prev)).

(** The damping that execution [t] of a run solves with. *)
Definition damping_used {I Inv} (c : cfg) (states : nat -> pst I Inv) (t : nat) : R :=
  s_damping (o_st (states (if c_immediate c then t else S t))).

(** The damping after [k] successful adaptations, starting from [d0]. *)
Definition floored_decay (c : cfg) (d0 : R) (k : nat) : R :=
  if Nat.eqb k 0 then d0
  else Rmax (d0 * (c_decay c ^ c_interval c) ^ k) (c_min_damping c + c_l2 c).

(** The loss of every mini-batch is quadratic, with the gradients and the
    curvature factor the library computes for it. *)
Definition quadratic_env {Batch I Inv} (e : env Batch I Inv) (params0 : nat -> vec) (n l2 : R) : Prop :=
  forall params b, (forall k, length (params k) = length (params0 k)) ->
    quadratic_at (e_loss e b) (e_mft e params b) n l2 params (e_grads e params b).

(** Execution [t] of a run has a system it can solve. *)
Definition solvable_step {Batch I Inv} (c : cfg) (e : env Batch I Inv)
    (inputs : nat -> input Batch) (states : nat -> pst I Inv) (t : nat) : Prop :=
  let s := o_st (states t) in
  let g := e_grads e (s_params s) (i_batch (inputs t)) in
  solvable (e_mft e (s_params s) (i_batch (inputs t))) (c_batch_size c) (damping_used c states t)
    (map fst g) (map fst (e_precond e (o_inv (states (S t))) g)) (previous_update s (map snd g)).

(** Change of the loss on the mini-batch of execution [t], by that execution. *)
Definition own_change {Batch I Inv} (e : env Batch I Inv)
    (inputs : nat -> input Batch) (states : nat -> pst I Inv) (t : nat) : R :=
  e_loss e (i_batch (inputs t)) (s_params (o_st (states (S t))))
  - e_loss e (i_batch (inputs t)) (s_params (o_st (states t))).

(** The gradient of execution [t], measured by the approximate inverse it uses. *)
Definition slope {Batch I Inv} (e : env Batch I Inv)
    (inputs : nat -> input Batch) (states : nat -> pst I Inv) (t : nat) : R :=
  let g := e_grads e (s_params (o_st (states t))) (i_batch (inputs t)) in
  inner (map fst g) (map fst (e_precond e (o_inv (states (S t))) g)).
