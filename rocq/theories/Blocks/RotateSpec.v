(** Vocabulary of property C121: the same layer in other coordinates. *)
From mathcomp Require Import all_ssreflect all_fingroup all_algebra.
From Verif.Blocks Require Import Model.
Set Implicit Arguments.
Unset Strict Implicit.
Unset Printing Implicit Defensive.
Import GRing.Theory Num.Theory.
Local Open Scope ring_scope.

Section Rotate.
Variable F : rcfType.

(** Orthogonal changes of coordinates, and those that only renumber them. *)
Definition orthogonal n (Q : 'M[F]_n) : Prop := Q *m Q^T = 1%:M.
Definition renumbering n (Q : 'M[F]_n) : Prop := exists s : 'S_n, Q = perm_mx s.

(** The parameters of the layer whose inputs and outputs are in the coordinates [Q] and [R]:
    an input [x] is there [x *m Q^T], an output [y] is [y *m R^T]. *)
Definition rotated m n has_bias (Q : 'M[F]_m) (R : 'M[F]_n)
  : params F m n has_bias -> params F m n has_bias :=
  match has_bias with
  | true => fun v => (Q *m v.1 *m R^T, v.2 *m R^T)
  | false => fun w => Q *m w *m R^T
  end.

(** The change of the input coordinates when the constant input of the bias is added at the
    end. *)
Definition with_constant m (has_bias : bool) (Q : 'M[F]_m) : 'M[F]_(rows m has_bias) :=
  match has_bias with
  | true => block_mx Q 0 0 1%:M
  | false => Q
  end.
End Rotate.
