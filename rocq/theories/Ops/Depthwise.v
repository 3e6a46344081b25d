(** Model of the blocks for depthwise convolutions (fisher_blocks.py:1094-1318).  A filter of
    shape [height, width, in_channels, n] is the matrix of tf.reshape(w, [-1, n]), with a row
    per filter position and input channel, in row-major order. *)
From mathcomp Require Import all_ssreflect all_algebra.
From Verif.Base Require Import Py.
From Verif.Blocks Require Import Model.
Set Implicit Arguments.
Unset Strict Implicit.
Unset Printing Implicit Defensive.
Import GRing.Theory Num.Theory.
Local Open Scope ring_scope.

Section Depthwise.
Variables (F : rcfType) (k c n : nat).  (* positions, input channels, channel multiplier *)

(** depthwise_conv2d_filter_to_conv2d_filter, fisher_blocks.py:1237-1277.  Simplification:
    the entries of the result; the slices, zeros and concatenations that produce them are
    Tensors/Model.v (depthwise_to_conv2d), where C18 proves that these are the entries. *)
Definition filter_to_conv2d (f : 'M[F]_(k * c, n)) : 'M[F]_(k * c, c * n) :=
  \matrix_(r, s) if rm_col r == rm_row s then f r (rm_col s) else 0.

(** conv2d_filter_to_depthwise_conv2d_filter, fisher_blocks.py:1280-1318 (the same). *)
Definition filter_to_depthwise (g : 'M[F]_(k * c, c * n)) : 'M[F]_(k * c, n) :=
  \matrix_(r, s) g r (rm_pos (rm_col r) s).

(** DepthwiseConvKFCBasicFB._multiply_factored_matrix, fisher_blocks.py:1226-1234. *)
Definition depthwise_multiply_factored (left : linop F (k * c)) (right : linop F (c * n))
    (vector : 'M[F]_(k * c, n)) (extra_scale : F) (transpose_left transpose_right : bool)
  : 'M[F]_(k * c, n) :=
  let conv2d_vector := filter_to_conv2d vector in
  let conv2d_result := @multiply_factored_matrix F (k * c) (c * n) false left right conv2d_vector
                         extra_scale transpose_left transpose_right in
  filter_to_depthwise conv2d_result.
(** The power function (see Blocks/Model.v). *)
Variable pow : F -> F -> F.
(** KroneckerProductFB.multiply_matpower for it, fisher_blocks.py:875-882; [left] and [right]
    are [get_matpower] of the two factors. *)
Definition depthwise_multiply_matpower (left : F -> res (linop F (k * c)))
    (right : F -> res (linop F (c * n))) (renorm : F) (vector : 'M[F]_(k * c, n)) (exp : F)
  : res 'M[F]_(k * c, n) :=
  match left exp, right exp with
  | Ok l, Ok r => Ok (depthwise_multiply_factored l r vector (pow renorm exp) false false)
  | Raise e, _ => Raise e
  | _, Raise e => Raise e
  end.

(** DepthwiseConvDiagonalFB._multiply_matrix, fisher_blocks.py:1156-1160. *)
Definition depthwise_diagonal_multiply (matrix : linop F (k * c * (c * n))) (vector : 'M[F]_(k * c, n))
  : 'M[F]_(k * c, n) :=
  filter_to_depthwise (@diagonal_multiply F (k * c) (c * n) false matrix (filter_to_conv2d vector) false).
End Depthwise.
