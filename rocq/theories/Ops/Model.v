(** Model of the patch extraction functions (utils.py), the convolution, scale and shift
    factors that use them (fisher_factors.py), and the number of locations that convolution
    blocks use (fisher_blocks.py, layer_collection.py).  Tensors and TensorFlow operations
    are in Ops/Tensor.v. *)
From Coq Require Import String ZArith.
From Verif Require Import Base.Py.
From Verif.Tensors Require Model.
From mathcomp Require Import all_ssreflect all_algebra.
From Verif.Ops Require Import Tensor.
Set Implicit Arguments.
Unset Strict Implicit.
Unset Printing Implicit Defensive.
Import GRing.Theory Num.Theory.
Local Open Scope ring_scope.

(** utils.is_data_format_channel_last, utils.py:903-907. *)
Definition is_data_format_channel_last (data_format : option string) : bool :=
  match data_format with
  | None => true
  | Some s => match String.length s with
              | 0%N => false
              | n.+1 => String.eqb (String.substring n 1 s) "C"
              end
  end.

Section Patches.
Variable F : rcfType.
Notation tensor := (tensor F).

(** utils.py:836-841: a list with an entry per dimension loses those of batch and channels. *)
Definition spatial_only (rank : nat) (l : option (seq nat)) : option (seq nat) :=
  match l with
  | Some l => Some (if size l == rank then spatial l else l)
  | None => None
  end.

(** utils.extract_convolution_patches, utils.py:786-855.  [static_batch] tells whether the
    batch size is known when the graph is built ([batch_size or -1]). *)
Definition extract_convolution_patches (inputs : tensor) (filter_shape : seq nat) (p : padding)
    (strides dilation_rate : option (seq nat)) (data_format : option string)
    (static_batch : bool) : res tensor :=
  if ~~ is_data_format_channel_last data_format then Raise ValueError
  else if (size filter_shape < 2)%N then Raise IndexError
  else
    let batch_size := head 0%N (shp inputs) in
    let in_channels := last 0%N (shp inputs) in
    let spatial_filter_shape := take (size filter_shape - 2) filter_shape in
    if in_channels != nth 0%N filter_shape (size filter_shape - 2) then Raise ValueError
    else
      let out_channels := (num_entries spatial_filter_shape * in_channels)%N in
      do filters <- tf_reshape (tf_eye F out_channels)
                      [seq Some n | n <- spatial_filter_shape ++ [:: in_channels; out_channels]];
      let strides := spatial_only (size (shp inputs)) strides in
      let dilation_rate := spatial_only (size (shp inputs)) dilation_rate in
      do result <- convolution inputs filters p strides dilation_rate;
      let spatial_output_shape := spatial (shp result) in
      let batch := if static_batch && (batch_size != 0%N) then Some batch_size else None in
      tf_reshape result
        (batch :: [seq Some n | n <- spatial_output_shape ++ spatial_filter_shape ++ [:: in_channels]]).

(** utils.extract_pointwise_conv2d_patches, utils.py:858-900.  With an unknown batch size the
    final reshape is given [None] and raises. *)
Definition extract_pointwise_conv2d_patches (inputs : tensor) (filter_shape : seq nat)
    (data_format : option string) (static_batch : bool) : res tensor :=
  if size (shp inputs) != 4%N then Raise ValueError
  else if size filter_shape != 4%N then Raise ValueError
  else if (nth 0%N filter_shape 0 != 1%N) || (nth 0%N filter_shape 1 != 1%N) then Raise ValueError
  else if ~~ is_data_format_channel_last data_format then Raise ValueError
  else
    do result <- extract_image_patches inputs [:: 1; 1; 1; 1]%N [:: 1; 1; 1; 1]%N [:: 1; 1; 1; 1]%N VALID;
    if static_batch then
      tf_reshape result [seq Some n | n <- take 3 (shp inputs) ++ take 2 filter_shape ++
                                           [:: nth 0%N filter_shape 2]]
    else Raise ValueError.

(** The values of [extract_patches_fn] that ConvInputKroneckerFactor knows. *)
Inductive patches_fn := ConvolutionPatches | ImagePatches | PointwisePatches.

(** ConvInputKroneckerFactor._compute_new_cov, fisher_factors.py:1861-1892: the patches. *)
Definition convin_extract (fn : patches_fn) (inputs : tensor) (filter_shape : seq nat) (p : padding)
    (strides dilation_rate : option (seq nat)) (data_format : option string)
    (static_batch : bool) : res tensor :=
  match fn with
  | ConvolutionPatches =>
      extract_convolution_patches inputs filter_shape p strides dilation_rate data_format static_batch
  | ImagePatches =>
      if (size (shp inputs) != 4%N) || (size filter_shape != 4%N) then Raise AssertionError
      else
        match strides with
        | None => Raise TypeError
        | Some strides =>
            if size strides != 4%N then Raise AssertionError
            else
              let rates := odflt [:: 1; 1; 1; 1]%N dilation_rate in
              if (size rates != 4%N) || (nth 0%N rates 0 != nth 0%N rates 3)
                 || (nth 0%N rates 3 != 1%N) then Raise AssertionError
              else extract_image_patches inputs (1%N :: take 2 filter_shape ++ [:: 1%N]) strides rates p
        end
  | PointwisePatches =>
      if (strides != None) && (strides != Some [:: 1; 1; 1; 1]%N) then Raise AssertionError
      else if (nth 0%N filter_shape 0 != nth 0%N filter_shape 1) || (nth 0%N filter_shape 1 != 1%N)
      then Raise AssertionError
      else extract_pointwise_conv2d_patches inputs filter_shape None static_batch
  end.

(** fisher_factors.py:1899-1905, without a patch mask: the matrix with a row per location. *)
Definition convin_patches_flat (patches : tensor) (filter_shape : seq nat) : res tensor :=
  tf_reshape patches [:: None; Some (num_entries (take (size filter_shape - 1) filter_shape))].

(** append_homog of a matrix, fisher_factors.py:247-270. *)
Definition append_homog (t : tensor) : res tensor :=
  tf_concat1 t (Tensor [:: head 0%N (shp t); 1%N] (fun=> 1)).

(** compute_cov of a matrix, fisher_factors.py:219-244. *)
Definition compute_cov (t : tensor) : tensor :=
  let n := last 0%N (shp t) in
  let m := head 0%N (shp t) in
  let cov i j := (\sum_(r < m) at_ t [:: nat_of_ord r; i] * at_ t [:: nat_of_ord r; j]) / m%:R in
  Tensor [:: n; n] (fun idx => let i := nth 0%N idx 0 in let j := nth 0%N idx 1 in
                      (cov i j + cov j i) / 2%:R).

(** _random_tensor_gather, fisher_factors.py:386-408.  [shuffle n] is the permutation of
    0, ..., n-1 that tf.random_shuffle draws. *)
Definition random_tensor_gather (shuffle : nat -> seq nat) (t : tensor) (num_ind : nat) : tensor :=
  tf_gather t (take num_ind (shuffle (head 0%N (shp t)))).

(** Ceiling of [per * n] for a rational [per] with denominator [den]. *)
Definition ceil_mul (num den n : nat) : nat := ((num * n + den.-1) %/ den)%N.

(** _subsample_patches, fisher_factors.py:345-383.  The constants _MAX_NUM_PATCHES and
    _MAX_NUM_PATCHES_PER_DIMENSION (a quotient) are arguments; the static and the dynamic
    branch compute the same. *)
Definition subsample_patches (shuffle : nat -> seq nat) (max_num num den : nat) (patches : tensor)
  : res tensor :=
  if size (shp patches) != 2%N then Raise ValueError
  else
    let total_patches := nth 0%N (shp patches) 0 in
    let dimension := nth 0%N (shp patches) 1 in
    let num_patches := minn max_num (ceil_mul num den dimension) in
    if (num_patches < total_patches)%N
    then Ok (random_tensor_gather shuffle patches num_patches) else Ok patches.

(** The sampling options of ConvInputKroneckerFactor and the constants they use.  [o_inputs]:
    sub_sample_inputs and _INPUTS_TO_EXTRACT_PATCHES_FACTOR (a quotient); [o_patches]:
    sub_sample_patches. *)
Record sampling := Sampling {
  o_inputs : option (nat * nat);
  o_patches : option (nat * nat * nat);
  o_shuffle_inputs : nat -> seq nat;
  o_shuffle_patches : nat -> seq nat }.

(** ConvInputKroneckerFactor._compute_new_cov, fisher_factors.py:1831-1921, without a patch
    mask (see Blocks/Model.v for the mask). *)
Definition convin_new_cov (fn : patches_fn) (smp : sampling) (has_bias : bool) (inputs : tensor)
    (filter_shape : seq nat) (p : padding) (strides dilation_rate : option (seq nat))
    (data_format : option string) (static_batch : bool) : res tensor :=
  let inputs := match o_inputs smp with
                | Some (num, den) =>
                    random_tensor_gather (o_shuffle_inputs smp) inputs
                      (ceil_mul num den (head 0%N (shp inputs)))
                | None => inputs
                end in
  do patches <- convin_extract fn inputs filter_shape p strides dilation_rate data_format static_batch;
  do patches_flat <- convin_patches_flat patches filter_shape;
  do patches_flat <- match o_patches smp with
                     | Some (m, num, den) => subsample_patches (o_shuffle_patches smp) m num den patches_flat
                     | None => Ok patches_flat
                     end;
  do patches_flat <- (if has_bias then append_homog patches_flat else Ok patches_flat);
  Ok (compute_cov patches_flat).

(** append_homog of patches of rank four, fisher_factors.py:247-270 and 1636-1637. *)
Definition append_homog4 (t : tensor) : tensor :=
  let c := last 0%N (shp t) in
  Tensor (take 3 (shp t) ++ [:: c.+1])
    (fun idx => if nth 0%N idx 3 == c then 1 else at_ t idx).

(** ConvDiagonalFactor: the patches (make_covariance_update_op, fisher_factors.py:1608-1642,
    without a mask) and the statistic of one tower (_compute_new_cov and
    _convdiag_sum_of_squares, 1644-1664). *)
Definition convdiag_patches (inputs : tensor) (filter_shape strides : seq nat)
    (dilations : option (seq nat)) (p : padding) (has_bias : bool) : res tensor :=
  let rates := odflt [:: 1; 1; 1; 1]%N dilations in
  do patches <- extract_image_patches inputs
                  [:: 1%N; nth 0%N filter_shape 0; nth 0%N filter_shape 1; 1%N] strides rates p;
  Ok (if has_bias then append_homog4 patches else patches).
Definition convdiag_new_cov (patches outputs_grad : tensor) : res tensor :=
  match shp patches, shp outputs_grad with
  | [:: b; h; w; n], [:: b'; h'; w'; c] =>
      if [&& b == b', h == h' & w == w'] then
        let case_wise_gradients i k l :=
          \sum_(y < h) \sum_(x < w) at_ patches [:: i; nat_of_ord y; nat_of_ord x; k] *
                                    at_ outputs_grad [:: i; nat_of_ord y; nat_of_ord x; l] in
        Ok (Tensor [:: n; c]
             (fun idx => (\sum_(i < b) case_wise_gradients i (nth 0%N idx 0) (nth 0%N idx 1) ^+ 2) / b%:R))
      else Raise InvalidArgumentError
  | _, _ => Raise ValueError
  end.

(* ------------------------------------------------------------------------ *)
(** ** Scale and shift *)

(** LayerCollection.register_scale_and_shift, layer_collection.py:1434-1453 (shift) and
    1458-1473 (scale): the dimensions along which a parameter is repeated.  [strict] is the
    extra check of the shift for a dimension larger than the output's. *)
Fixpoint bdims_loop (strict : bool) (i : nat) (param data : seq nat) : res (seq nat) :=
  match param, data with
  | m :: param', n :: data' =>
      if (m < n)%N then
        if m == 1%N then do l <- bdims_loop strict i.+1 param' data'; Ok (i :: l)
        else Raise ValueError
      else if strict && (n < m)%N then Raise ValueError
      else bdims_loop strict i.+1 param' data'
  | _, _ => Ok [::]
  end.
Definition broadcast_dims (strict : bool) (param data : seq nat) : res (seq nat) :=
  if (size data < size param)%N then Raise ValueError
  else
    let start_dim := (size data - size param)%N in
    if (start_dim == 0%N) && (head 0%N param != 1%N) then Raise ValueError
    else
      let first := maxn start_dim 1 in
      do l <- bdims_loop strict first (drop (first - start_dim) param) (drop first data);
      Ok (iota 1 (start_dim - 1) ++ l).
Definition register_scale_and_shift_dims (scale : seq nat) (shift : option (seq nat))
    (inputs outputs : seq nat) : res (seq nat * option (seq nat)) :=
  do bshift <- match shift with
               | Some s => do l <- broadcast_dims true s outputs; Ok (Some l)
               | None => Ok None
               end;
  do bscale <- broadcast_dims false scale inputs;
  Ok (bscale, bshift).

(** ScaleAndShiftFactor._cov_shape, fisher_factors.py:1400-1421: the number of rows. *)
Definition scale_shift_cov_size (inputs outputs_grad bscale : seq nat) (bshift : option (seq nat)) : nat :=
  (num_entries [seq nth 0%N inputs i | i <- iota 1 (size inputs - 1) & i \notin bscale] +
   match bshift with
   | Some l => num_entries [seq nth 0%N outputs_grad i | i <- iota 1 (size outputs_grad - 1) & i \notin l]
   | None => 0
   end)%N.

(** ScaleAndShiftFactor._compute_new_cov, fisher_factors.py:1437-1472: the matrix with the
    gradients of the examples ... *)
Definition scale_shift_grads (inputs outputs_grad : tensor) (bscale : seq nat)
    (bshift : option (seq nat)) : res tensor :=
  let batch_size := head 0%N (shp inputs) in
  if size (shp inputs) != size (shp outputs_grad) then Raise AssertionError
  else if ~~ all (fun i => nth 0 (shp inputs) i <= nth 0 (shp outputs_grad) i)%N
                 (iota 1 (size (shp inputs) - 1)) then Raise AssertionError
  else
    do prod <- tf_multiply inputs outputs_grad;
    let scale_grads := tf_reduce_sum prod bscale in
    do scale_grads_flat <- tf_reshape scale_grads [:: Some batch_size; None];
    match bshift with
    | Some l =>
        let shift_grads := tf_reduce_sum outputs_grad l in
        do shift_grads_flat <- tf_reshape shift_grads [:: Some batch_size; None];
        tf_concat1 scale_grads_flat shift_grads_flat
    | None => Ok scale_grads_flat
    end.
(** ... and the statistic. *)
Definition mean_square (t : tensor) : tensor :=
  let m := head 0%N (shp t) in
  Tensor (behead (shp t))
    (fun idx => (\sum_(r < m) at_ t (nat_of_ord r :: idx) ^+ 2) / m%:R).
Definition scale_shift_new_cov (full : bool) (inputs outputs_grad : tensor) (bscale : seq nat)
    (bshift : option (seq nat)) : res tensor :=
  do g <- scale_shift_grads inputs outputs_grad bscale bshift;
  Ok (if full then compute_cov g else mean_square g).
End Patches.

(* ------------------------------------------------------------------------ *)
(** ** The number of locations of a convolution block *)

Definition pad_name (p : padding) : string :=
  match p with SAME => "SAME" | VALID => "VALID" end%string.

(** The registrations of convolutions: LayerCollection.register_conv1d (layer_collection.py:
    838-852), register_conv2d (913-957; its three approximations), register_convolution
    (1011-1023) and register_depthwise_conv2d (1068-1082). *)
Inductive conv_registration :=
| Conv1d (strides : seq nat)
| Conv2dKron (strides : seq nat)
| Conv2dDiagonal (strides : seq nat)
| Conv2dSua (strides : seq nat)
| Convolution (strides : option (seq nat))
| Depthwise (strides : seq nat).

(** The strides that reach the block; the approximation "kron_sua" of register_conv2d passes
    only the padding (layer_collection.py:947-954). *)
Definition block_strides (r : conv_registration) : option (seq nat) :=
  match r with
  | Conv1d s | Conv2dKron s | Conv2dDiagonal s | Depthwise s => Some s
  | Conv2dSua _ => None
  | Convolution s => s
  end.

(** instantiate_factors of ConvDiagonalFB (fisher_blocks.py:672-679) and ConvKFCBasicFB
    (1063-1070): [_num_locations]. *)
Definition block_num_locations (r : conv_registration) (inputs filter_shape : seq nat) (p : padding)
  : res Z :=
  Verif.Tensors.Model.num_conv_locations
    (map Z.of_nat inputs) (map Z.of_nat filter_shape)
    (omap (map Z.of_nat) (block_strides r)) (Some (pad_name p)).
