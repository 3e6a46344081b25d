(** Vocabulary of C109: histories of a factor under any update schedule, and the inner product
    of two sets of layer parameters. *)
From mathcomp Require Import all_ssreflect all_algebra.
From Verif.Base Require Import Py.
From Verif.Blocks Require Import Model Spec.
Set Implicit Arguments.
Unset Strict Implicit.
Unset Printing Implicit Defensive.
Import GRing.Theory Num.Theory.
Local Open Scope ring_scope.

Section DescentSpec.
Variable F : rcfType.

(** Whatever the schedule, the covariances that are assigned are positive semidefinite (what C46 proves
    of the statistics) and the damping is positive whenever inverses are computed. *)
Definition legal_history n (id : nat) (l : seq (event F n)) : Prop :=
  (forall c, List.In (NewCov c) l -> psd c) /\ (forall k d, List.In (RunOp n k d) l -> 0 < d id).
(** Each of the [num_ops] inverse update ops ran at least once, at whatever time. *)
Definition each_ran n (num_ops : nat) (l : seq (event F n)) : Prop :=
  forall k, (k < num_ops)%N -> runs k l.

(** The inner product of [v] and [w], as vectors of coordinates. *)
Definition is_inner m n has_bias (v w : params F m n has_bias) (x : F) : Prop :=
  exists cv cw, [/\ is_column v cv, is_column w cw & x = \sum_p cv p 0 * cw p 0].
Definition nonzero m n has_bias (v : params F m n has_bias) : Prop :=
  exists p x, coordinate v p x /\ x <> 0.
End DescentSpec.
