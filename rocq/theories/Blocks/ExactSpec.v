(** Vocabulary of property C122: what a Kronecker-factored block approximates. *)
From mathcomp Require Import all_ssreflect all_algebra.
From Verif.Blocks Require Import Model Spec.
Set Implicit Arguments.
Unset Strict Implicit.
Unset Printing Implicit Defensive.
Import GRing.Theory Num.Theory.
Local Open Scope ring_scope.

Section Exact.
Variable F : rcfType.

(** An example: what a fully connected layer reads and the gradient with respect to what it
    produces. *)
Definition example m n : Type := ('rV[F]_m * 'rV[F]_n)%type.

(** The block of the curvature matrix that belongs to the layer: the mean over the examples of
    the outer product of the gradient with respect to the layer's parameters with itself. *)
Definition is_block m n has_bias (examples : seq (example m n)) (B : 'M[F]_(rows m has_bias * n)) : Prop :=
  exists grad : example m n -> 'cV[F]_(rows m has_bias * n),
    (forall e, is_gradient [:: e] (grad e)) /\
    B = (size examples)%:R^-1 *: \sum_(e <- examples) grad e *m (grad e)^T.

(** The statistic of the inputs of a layer with or without bias. *)
Definition input_statistic m has_bias : seq 'rV[F]_m -> 'M[F]_(rows m has_bias) :=
  match has_bias with
  | true => @fc_new_cov_bias F m
  | false => @fc_new_cov F m
  end.
(** The same for one input. *)
Definition input_moment m has_bias (x : 'rV[F]_m) : 'M[F]_(rows m has_bias) := input_statistic has_bias [:: x].
Definition output_moment n (g : 'rV[F]_n) : 'M[F]_n := fc_new_cov [:: g].
End Exact.
