(** Model of the input factors of fully connected and of embedding layers, as they are chosen by
    the block and by the kind of data: kfac/python/ops/fisher_factors.py:1126-1277, 1678-1731 and
    2533-2539, kfac/python/ops/fisher_blocks.py:943-973 and 1515-1537. *)
From mathcomp Require Import all_ssreflect all_algebra.
From Verif.Base Require Import Py.
From Verif.Blocks Require Import Model.
Set Implicit Arguments.
Unset Strict Implicit.
Unset Printing Implicit Defensive.
Import GRing.Theory Num.Theory.
Local Open Scope ring_scope.

Section Embed.
Variable F : rcfType.

(** A tensor of inputs of a layer with [n] inputs: dense rows, of rank 2 or (with several uses)
    of rank 3, or indices, of rank 1 or (with several uses) of rank 2.  Indices carry the
    attribute [one_hot_depth] (layer_collection.py:790-791 and 1277-1282), which is [n].
    Simplification: all the tensors of a factor are of the same kind as the first one, which is
    the one the code looks at; indices are natural numbers (tf.one_hot gives a zero row for a
    negative index, as for one that is too large). *)
Inductive input_tensor (n : nat) :=
| Rows2 of seq 'rV[F]_n
| Rows3 of seq (seq 'rV[F]_n)
| Ids1 of seq nat
| Ids2 of seq (seq nat).

(** getattr(tensor, "one_hot_depth", None), fisher_factors.py:1146-1152 and 1694 *)
Definition one_hot_depth n (t : input_tensor n) : option nat :=
  match t with Rows2 _ | Rows3 _ => None | Ids1 _ | Ids2 _ => Some n end.

(** DiagonalKroneckerFactor._compute_new_cov_from_tensor, 1187-1224, without the bias *)
Definition new_cov_from_tensor n (t : input_tensor n) : res 'rV[F]_n :=
  match one_hot_depth t with
  | None => match t with Rows2 rows => Ok (diagkron_new_cov rows) | _ => Raise ValueError end
  | Some _ => match t with Ids1 ids => Ok (diagkron_new_cov_sparse F n ids) | _ => Raise ValueError end
  end.
(** ... with the bias, 1221-1222 *)
Definition new_cov_from_tensor_bias n (t : input_tensor n) : res 'rV[F]_(n + 1) :=
  match new_cov_from_tensor t with
  | Ok d => Ok (append_homog d)
  | Raise e => Raise e
  end.
(** DiagonalMultiKF._compute_new_cov, 1268-1275 *)
Definition fold_uses n (t : input_tensor n) : input_tensor n :=
  match one_hot_depth t with
  | None => match t with Rows3 l => Rows2 (flatten l) | _ => t end
  | Some _ => match t with Ids2 l => Ids1 n (flatten l) | _ => t end
  end.
(** 1182-1183 and (several uses) 1237-1253; the sizes of a tensor of shape [uses, batch, ...] are
    those of a list of [uses] lists.  [shape[0] // num_uses] *)
Definition partial_batch_size n (num_uses : option nat) (t : input_tensor n) : nat :=
  match num_uses with
  | None => match t with
            | Rows2 r => size r | Ids1 r => size r | Rows3 r => size r | Ids2 r => size r end
  | Some u => match t with
              | Rows2 r => size r %/ u | Ids1 r => size r %/ u
              | Rows3 r => size (head [::] r) | Ids2 r => size (head [::] r) end
  end.

(** FullyConnectedKroneckerFactor, 1678-1731, and FullyConnectedMultiKF, whose tensors of rank 3
    are folded (2533-2539, 2582-2589).  Simplification: the factor for a single use is only given
    tensors of rank 2 (a tensor of rank 3 is an error). *)
Definition full_new_cov n (multi : bool) (t : input_tensor n) : res 'M[F]_n :=
  match one_hot_depth t with
  | Some _ => Raise ValueError
  | None =>
      match (if multi then fold_uses t else t) with
      | Rows2 rows => Ok (fc_new_cov rows)
      | _ => Raise ValueError
      end
  end.
(** DiagonalKroneckerFactor or, with several uses, DiagonalMultiKF *)
Definition diag_new_cov n (multi : bool) (t : input_tensor n) : res 'rV[F]_n :=
  new_cov_from_tensor (if multi then fold_uses t else t).

(** FullyConnectedKFACBasicFB.instantiate_factors, fisher_blocks.py:955-962, and
    FullyConnectedMultiIndepFB.instantiate_factors, 1518-1525: the statistic of the input factor,
    as the operator that get_cov_as_linear_operator gives (fisher_factors.py:688-693, 1006-1010). *)
Definition input_statistic n (diagonal_approx_for_input multi : bool) (t : input_tensor n)
  : res (linop F n) :=
  if diagonal_approx_for_input then
    match diag_new_cov multi t with Ok d => Ok (DiagOp d) | Raise e => Raise e end
  else
    match full_new_cov multi t with Ok M => Ok (FullMatrix M) | Raise e => Raise e end.
End Embed.
