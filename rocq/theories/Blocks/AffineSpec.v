(** Vocabulary of property C123: a layer in arbitrary affine coordinates. *)
From mathcomp Require Import all_ssreflect all_algebra.
From Verif.Blocks Require Import Model Spec.
Set Implicit Arguments.
Unset Strict Implicit.
Unset Printing Implicit Defensive.
Import GRing.Theory Num.Theory.
Local Open Scope ring_scope.

Section Affine.
Variable F : rcfType.
Variables (m n : nat) (has_bias : bool).

(** Other coordinates for the inputs, [x *m Q + c], where a shift needs a bias that can undo
    it, and for the outputs, [y *m N]. *)
Definition change_of_inputs (Q : 'M[F]_m) (c : 'rV[F]_m) : Prop :=
  Q \in unitmx /\ (has_bias = false -> c = 0).

(** [v'] is the layer [v] in these coordinates: it computes the same outputs. *)
Definition same_layer (Q : 'M[F]_m) (c : 'rV[F]_m) (N : 'M[F]_n) (v v' : params F m n has_bias) : Prop :=
  forall x, fc_output v' (x *m Q + c) = fc_output v x *m N.

(** The inputs and the gradients with respect to the outputs in the other coordinates: a
    function of the outputs [y] whose gradient is [g] has, as a function of [y *m N], the
    gradient [g *m (invmx N)^T]. *)
Definition new_input (Q : 'M[F]_m) (c x : 'rV[F]_m) : 'rV[F]_m := x *m Q + c.
Definition new_gradient (N : 'M[F]_n) (g : 'rV[F]_n) : 'rV[F]_n := g *m (invmx N)^T.

(** Updated parameters. *)
Definition updated (lr : F) : params F m n has_bias -> params F m n has_bias -> params F m n has_bias :=
  match has_bias with
  | true => fun v w => (v.1 - lr *: w.1, v.2 - lr *: w.2)
  | false => fun v w => v - lr *: w
  end.
End Affine.
