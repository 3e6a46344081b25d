(** Vocabulary of Diff/GnProps.v: second derivatives of the nodes of a computation graph. *)
From Coq Require Import List Arith Reals.
From Coquelicot Require Import Coquelicot.
From Verif.Base Require Import Py.
From Verif.Diff Require Import Model Spec.
Import ListNotations.
Open Scope R_scope.

Section Spec.
Variable O : ops.
(** [D] is the derivative, in the direction [v], of the partial derivative of node [y] by node
    [z], while the nodes of [stops] are held where they are (or are moved to). *)
Definition second_derivative (env : nat -> R) (stops : list nat) (G : graph O) (y z : nat) (v : nat -> R) (D : R) : Prop :=
  exists grad : (nat -> R) -> R,
    (forall e, derivative (fun e => after O env stops G e y) e (along [z] [1]) (grad e)) /\
    derivative grad no_move v D.
(** Node [y] is an affine function of the nodes [wrt]: however they are moved, its partial
    derivatives are the same. *)
Definition affine_in (env : nat -> R) (G : graph O) (wrt : list nat) (y : nat) : Prop :=
  forall w, In w wrt -> exists d, forall cs,
    derivative (fun e => after O env [] G e y) (along wrt cs) (along [w] [1]) d.
(** The loss reaches the tensors [wrt] through [inputs] only. *)
Definition only_through (G : graph O) (loss : nat) (inputs wrt : list nat) : Prop :=
  forall w, In w wrt -> uses O inputs G loss w -> In w inputs.
(** No tensor is computed from another one. *)
Definition independent (G : graph O) (wrt : list nat) : Prop :=
  forall w w', In w wrt -> In w' wrt -> uses O [] G w w' -> w = w'.
End Spec.
