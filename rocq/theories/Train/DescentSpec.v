(** Vocabulary of C110. *)
From Coq Require Import List Reals.
From Verif.Train Require Import Model Spec.
Import ListNotations.
Open Scope R_scope.

(** Nothing is carried over from earlier steps: there is no momentum, or the velocities of the
    variables are still zero. *)
Definition nothing_carried (c : cfg) (s : st) (g : pairs) : Prop :=
  c_momentum c = 0 \/ forall k, In k (map snd g) -> forall j, coord j (s_vel s k) = 0.

(** [loss] is differentiable at the parameters [p] and [g] is its gradient with respect to the
    variables that [g] lists (the usual definition, for changes of those variables). *)
Definition is_gradient_of (loss : (nat -> vec) -> R) (p : nat -> vec) (g : pairs) : Prop :=
  forall eps, 0 < eps -> exists delta, 0 < delta /\
    forall p', (forall k, length (p' k) = length (p k)) ->
      (forall k, ~ In k (map snd g) -> p' k = p k) ->
      let d := displacement (map snd g) p p' in
      sqrt (inner d d) < delta ->
      Rabs (loss p' - loss p - inner (map fst g) d) <= eps * sqrt (inner d d).
