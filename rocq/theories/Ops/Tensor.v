(** Tensors with a shape and entries, and the TensorFlow operations that the code below calls.
    Everything here is the documented meaning of a TensorFlow operation (trusted, not
    modelled from /repo); Ops/Model.v models the functions of /repo that call them. *)
From Coq Require Import String.
From Verif Require Import Base.Py.
From mathcomp Require Import all_ssreflect all_algebra.
Set Implicit Arguments.
Unset Strict Implicit.
Unset Printing Implicit Defensive.
Import GRing.Theory Num.Theory.
Local Open Scope ring_scope.

(** Number of entries of a tensor of a given shape. *)
Definition num_entries (s : seq nat) : nat := foldr muln 1%N s.

(** All multi-indices of a shape, in row-major order. *)
Fixpoint indices (s : seq nat) : seq (seq nat) :=
  match s with
  | [::] => [:: [::]]
  | n :: s' => flatten [seq [seq i :: t | t <- indices s'] | i <- iota 0 n]
  end.

(** Place of a multi-index in that order. *)
Fixpoint ravel (s idx : seq nat) : nat :=
  match s, idx with
  | _ :: s', i :: idx' => (i * num_entries s' + ravel s' idx')%N
  | _, _ => 0%N
  end.

(** A multi-index inside a shape. *)
Fixpoint in_shape (s idx : seq nat) : bool :=
  match s, idx with
  | [::], [::] => true
  | n :: s', i :: idx' => (i < n)%N && in_shape s' idx'
  | _, _ => false
  end.

Section Tensors.
Variable F : rcfType.

(** Entries are only meaningful at indices inside the shape. *)
Record tensor := Tensor { shp : seq nat; at_ : seq nat -> F }.

(** The entries in row-major order. *)
Definition flat (t : tensor) : seq F := [seq at_ t i | i <- indices (shp t)].

(** tf.eye *)
Definition tf_eye (n : nat) : tensor :=
  Tensor [:: n; n] (fun idx => (nth 0 idx 0 == nth 0 idx 1)%N%:R).

(** tf.reshape; [None] is the dimension -1, inferred from the others (refused when they do
    not divide the number of entries, or when their product is zero). *)
Definition infer_dims (total : nat) (dims : seq (option nat)) : res (seq nat) :=
  let known := num_entries (pmap id dims) in
  match count (fun d => d == None) dims with
  | 0%N => Ok (pmap id dims)
  | 1%N => if (known != 0%N) && (known %| total)%N
           then Ok [seq odflt (total %/ known)%N d | d <- dims] else Raise ValueError
  | _ => Raise ValueError
  end.
Definition tf_reshape (t : tensor) (dims : seq (option nat)) : res tensor :=
  do s <- infer_dims (num_entries (shp t)) dims;
  if num_entries s == num_entries (shp t)
  then Ok (Tensor s (fun idx => nth 0 (flat t) (ravel s idx))) else Raise ValueError.

(** tf.reduce_sum(t, axis=axes): the axes that are kept, in order, index the result. *)
Definition keep (axes l : seq nat) : seq nat :=
  mask [seq j \notin axes | j <- iota 0 (size l)] l.
Definition tf_reduce_sum (t : tensor) (axes : seq nat) : tensor :=
  Tensor (keep axes (shp t))
    (fun idx => \sum_(i <- indices (shp t) | keep axes i == idx) at_ t i).

(** Broadcasting: the shape of an operand is aligned with the end of the result's; an axis
    of length one is repeated. *)
Definition bc_index (s idx : seq nat) : seq nat :=
  [seq if p.1 == 1%N then 0%N else p.2
      | p <- seq.zip s (drop (size idx - size s) idx)].
Definition bc_entry (t : tensor) (idx : seq nat) : F := at_ t (bc_index (shp t) idx).
Fixpoint bc_dims (a b : seq nat) : option (seq nat) :=
  match a, b with
  | [::], [::] => Some [::]
  | m :: a', n :: b' =>
      match bc_dims a' b' with
      | Some l => if m == n then Some (m :: l)
                  else if m == 1%N then Some (n :: l)
                  else if n == 1%N then Some (m :: l) else None
      | None => None
      end
  | _, _ => None
  end.
Definition bc_shape (a b : seq nat) : option (seq nat) :=
  let r := maxn (size a) (size b) in
  bc_dims (nseq (r - size a) 1%N ++ a) (nseq (r - size b) 1%N ++ b).
Definition tf_binary (op : F -> F -> F) (t u : tensor) : res tensor :=
  match bc_shape (shp t) (shp u) with
  | Some s => Ok (Tensor s (fun idx => op (bc_entry t idx) (bc_entry u idx)))
  | None => Raise ValueError
  end.
Definition tf_multiply : tensor -> tensor -> res tensor := tf_binary *%R.
Definition tf_add : tensor -> tensor -> res tensor := tf_binary +%R.

(** tf.concat of two matrices along axis 1. *)
Definition tf_concat1 (t u : tensor) : res tensor :=
  match shp t, shp u with
  | [:: m; n], [:: m'; n'] =>
      if m == m' then
        Ok (Tensor [:: m; (n + n')%N]
             (fun idx => let i := nth 0%N idx 0 in let j := nth 0%N idx 1 in
                if (j < n)%N then at_ t [:: i; j] else at_ u [:: i; (j - n)%N]))
      else Raise ValueError
  | _, _ => Raise ValueError
  end.

(** tf.gather along axis 0. *)
Definition tf_gather (t : tensor) (ixs : seq nat) : tensor :=
  Tensor (size ixs :: behead (shp t))
    (fun idx => at_ t (nth 0%N ixs (head 0%N idx) :: behead idx)).

(* ------------------------------------------------------------------------ *)
(** ** tf.nn.convolution and tf.extract_image_patches *)

Inductive padding := SAME | VALID.

(** One spatial dimension: size of the input, of the filter, stride and dilation. *)
Record dim := Dim { d_size : nat; d_filter : nat; d_stride : nat; d_rate : nat }.

(** Extent of the dilated filter. *)
Definition d_extent (d : dim) : nat := ((d_filter d).-1 * d_rate d).+1.

(** Number of output positions: the input size over the stride, rounded up, for SAME; for
    VALID (size - extent + stride) / stride, rounded towards zero and refused if negative. *)
Definition d_out (p : padding) (d : dim) : nat :=
  match p with
  | SAME => ((d_size d + (d_stride d).-1) %/ d_stride d)%N
  | VALID => ((d_size d + d_stride d - d_extent d) %/ d_stride d)%N
  end.
Definition d_negative (p : padding) (d : dim) : bool :=
  match p with SAME => false | VALID => (d_size d + d_stride d + d_stride d <= d_extent d)%N end.

(** Zeros put before the input. *)
Definition d_before (p : padding) (d : dim) : nat :=
  match p with
  | SAME => (((d_out SAME d).-1 * d_stride d + d_extent d - d_size d) %/ 2)%N
  | VALID => 0%N
  end.

(** The input position that filter position [k] reads for output position [o], or [None] in
    the padding. *)
Definition position (p : padding) (d : dim) (o k : nat) : option nat :=
  let at_padded := (o * d_stride d + k * d_rate d)%N in
  if (d_before p d <= at_padded)%N && (at_padded - d_before p d < d_size d)%N
  then Some (at_padded - d_before p d)%N else None.
Fixpoint positions (p : padding) (g : seq dim) (o k : seq nat) : option (seq nat) :=
  match g, o, k with
  | d :: g', o1 :: o', k1 :: k' =>
      match position p d o1 k1, positions p g' o' k' with
      | Some x, Some l => Some (x :: l)
      | _, _ => None
      end
  | _, _, _ => Some [::]
  end.
(** What filter position [k], input channel [c] reads in example [b] for output position [o]. *)
Definition window (p : padding) (g : seq dim) (x : tensor) (b : nat) (o k : seq nat) (c : nat) : F :=
  match positions p g o k with
  | Some l => at_ x (b :: l ++ [:: c])
  | None => 0
  end.

Definition dims (n k s d : seq nat) : seq dim :=
  [seq Dim q.1.1.1 q.1.1.2 q.1.2 q.2 | q <- seq.zip (seq.zip (seq.zip n k) s) d].

(** The spatial part of the shape [batch, spatial, channels]. *)
Definition spatial (s : seq nat) : seq nat := take (size s - 2) (behead s).

(** An entry of the output of a convolution (also of tf.nn.conv2d) with a filter of spatial
    shape [k]: example [b], position [o], output channel [c]. *)
Definition conv_entry (p : padding) (g : seq dim) (x f : tensor) (k : seq nat) (cin b : nat)
    (o : seq nat) (c : nat) : F :=
  \sum_(j <- indices k) \sum_(ci < cin)
     window p g x b o j ci * at_ f (j ++ [:: nat_of_ord ci; c]).

(** tf.nn.convolution(x, f, padding, strides, dilation_rate), channels last. *)
Definition convolution (x f : tensor) (p : padding) (strides rates : option (seq nat))
  : res tensor :=
  let r := size (shp x) in
  if ((r < 3) || (5 < r) || (size (shp f) != r))%N then Raise ValueError
  else
    let s := odflt (nseq (r - 2) 1%N) strides in
    let d := odflt (nseq (r - 2) 1%N) rates in
    if (size s != r - 2)%N || (size d != r - 2)%N || has (fun n => n == 0%N) s
       || has (fun n => n == 0%N) d then Raise ValueError
    else if has (fun n => 1 < n)%N s && has (fun n => 1 < n)%N d then Raise ValueError
    else
      let k := take (r - 2) (shp f) in
      let cin := nth 0%N (shp f) (r - 2) in
      let cout := nth 0%N (shp f) (r - 1) in
      let g := dims (spatial (shp x)) k s d in
      if last 0%N (shp x) != cin then Raise ValueError
      else if has (d_negative p) g then Raise ValueError
      else Ok (Tensor (head 0%N (shp x) :: [seq d_out p e | e <- g] ++ [:: cout])
        (fun idx =>
           conv_entry p g x f k cin (head 0%N idx) (spatial idx) (last 0%N idx))).

(** tf.extract_image_patches(x, ksizes, strides, rates, padding): the last axis runs over
    filter rows, filter columns and channels, row-major. *)
Definition extract_image_patches (x : tensor) (ksizes strides rates : seq nat) (p : padding)
  : res tensor :=
  match shp x, ksizes, strides, rates with
  | [:: b; h; w; c], [:: k0; kh; kw; k3], [:: s0; sh; sw; s3], [:: r0; rh; rw; r3] =>
      if [&& k0 == 1%N, k3 == 1%N, s0 == 1%N, s3 == 1%N, r0 == 1%N & r3 == 1%N] &&
         [&& kh != 0%N, kw != 0%N, sh != 0%N, sw != 0%N, rh != 0%N & rw != 0%N] then
        let g := [:: Dim h kh sh rh; Dim w kw sw rw] in
        if has (d_negative p) g then Raise ValueError
        else Ok (Tensor (b :: [seq d_out p e | e <- g] ++ [:: (kh * kw * c)%N])
          (fun idx =>
             let j := nth [::] (indices [:: kh; kw; c]) (nth 0%N idx 3) in
             window p g x (nth 0%N idx 0) [:: nth 0%N idx 1; nth 0%N idx 2]
                    (take 2 j) (last 0%N j)))
      else Raise InvalidArgumentError
  | _, _, _, _ => Raise ValueError
  end.

End Tensors.
