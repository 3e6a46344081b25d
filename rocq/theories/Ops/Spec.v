(** Vocabulary for the properties of patches, convolutions and scale-and-shift layers. *)
From Coq Require Import String.
From Verif Require Import Base.Py.
From mathcomp Require Import all_ssreflect all_algebra all_fingroup.
From Verif.Ops Require Import Tensor Model.
Set Implicit Arguments.
Unset Strict Implicit.
Unset Printing Implicit Defensive.
Import GRing.Theory Num.Theory.
Local Open Scope ring_scope.

(** A data format that puts the channels last. *)
Definition channels_last (data_format : option string) : Prop :=
  data_format = None \/ exists s, data_format = Some (s ++ "C")%string.

(** A list with an entry per spatial dimension may also be given with entries for the batch
    and the channels around them. *)
Definition spelled (spatial given : option (seq nat)) : Prop :=
  given = spatial \/ exists l a c, spatial = Some l /\ given = Some (a :: l ++ [:: c]).

(** The spatial dimensions of a convolution of [inputs] with a filter of shape [fs]. *)
Definition geometry (inputs fs : seq nat) (strides rates : option (seq nat)) : seq dim :=
  dims (spatial inputs) (take (size inputs - 2) fs)
       (odflt (nseq (size inputs - 2) 1%N) strides) (odflt (nseq (size inputs - 2) 1%N) rates).

(** In every dimension, filter position [k] read for output position [o] falls on the input
    position [l]: [l] = [o] * stride + [k] * dilation - padding. *)
Definition falls_on (p : padding) (g : seq dim) (o k l : seq nat) : Prop :=
  size l = size g /\
  forall i, (i < size g)%N ->
    let d := nth (Dim 0 0 0 0) g i in
    (nth 0 l i + d_before p d = nth 0 o i * d_stride d + nth 0 k i * d_rate d)%N /\
    (nth 0 l i < d_size d)%N.

Section Spec.
Variable F : rcfType.
Notation tensor := (tensor F).

(** [v] is what filter position [k] and channel [c] read in example [b] for output position
    [o]: the input there, or zero in the padding. *)
Definition is_read (p : padding) (g : seq dim) (x : tensor) (b : nat) (o k : seq nat) (c : nat)
    (v : F) : Prop :=
  (exists2 l, falls_on p g o k l & v = at_ x (b :: l ++ [:: c])) \/
  ((forall l, ~ falls_on p g o k l) /\ v = 0).

(** [M] has a row per example and output position and a column per filter position and
    input channel, both in row-major order, filled with what is read there. *)
Definition is_patch_matrix (p : padding) (g : seq dim) (x : tensor) (k : seq nat) (cin : nat)
    (M : tensor) : Prop :=
  let osp := [seq d_out p d | d <- g] in
  let batch := head 0%N (shp x) in
  shp M = [:: (batch * num_entries osp)%N; (num_entries k * cin)%N] /\
  forall b o j ci, (b < batch)%N -> in_shape osp o -> in_shape k j -> (ci < cin)%N ->
    is_read p g x b o j ci
      (at_ M [:: ravel (batch :: osp) (b :: o); ravel (k ++ [:: cin]) (j ++ [:: ci])]).

(** The layers and options for which each way of extracting patches is meant: [g] is the
    geometry, [k] the spatial filter shape, [cin] the number of input channels.
    extract_convolution_patches: whatever tf.nn.convolution accepts, for channels last.
    extract_image_patches: 2-D, strides and dilations with unit ends.
    extract_pointwise_conv2d_patches: 1x1 filters with unit strides, known batch size. *)
Inductive patchable : patches_fn -> tensor -> seq nat -> padding -> option (seq nat) ->
    option (seq nat) -> option string -> bool -> seq dim -> seq nat -> nat -> Prop :=
| by_convolution x f y p strides rates gstrides grates fmt (static : bool) :
    channels_last fmt -> spelled strides gstrides -> spelled rates grates ->
    convolution x f p strides rates = Ok y ->
    let g := geometry (shp x) (shp f) strides rates in
    num_entries (take (size (shp f) - 1) (shp f)) != 0%N ->
    (static /\ head 0%N (shp x) != 0%N) \/ num_entries [seq d_out p d | d <- g] != 0%N ->
    patchable ConvolutionPatches x (shp f) p gstrides grates fmt static g
              (take (size (shp f) - 2) (shp f)) (last 0%N (shp x))
| by_image x (kh kw cin cout : nat) p (sh sw : nat) rates (rh rw : nat) fmt static (b h w : nat) :
    shp x = [:: b; h; w; cin] ->
    [&& kh != 0, kw != 0, sh != 0, sw != 0, rh != 0, rw != 0 & cin != 0]%N ->
    rates = Some [:: 1; rh; rw; 1]%N \/ (rates = None /\ rh = 1%N /\ rw = 1%N) ->
    let g := [:: Dim h kh sh rh; Dim w kw sw rw] in
    has (d_negative p) g = false ->
    patchable ImagePatches x [:: kh; kw; cin; cout] p (Some [:: 1; sh; sw; 1]%N) rates fmt static
              g [:: kh; kw] cin
| by_pointwise x (cin cout : nat) p strides rates (rh rw : nat) fmt (b h w : nat) :
    shp x = [:: b; h; w; cin] -> cin != 0%N ->
    strides = None \/ strides = Some [:: 1; 1; 1; 1]%N ->
    patchable PointwisePatches x [:: 1; 1; cin; cout]%N p strides rates fmt true
              [:: Dim h 1 1 rh; Dim w 1 1 rw] [:: 1; 1]%N cin.

(** The order that a permutation puts 0, ..., n-1 in. *)
Definition shuffled n (s : 'S_n) : seq nat := [seq nat_of_ord (s i) | i <- enum 'I_n].

(** The average over all orders. *)
Definition mean_over_orders n (v : 'S_n -> F) : F := (\sum_(s : 'S_n) v s) / n`!%:R.

(** The parameters of a layer as the matrix that the blocks use: a row per filter position
    and input channel, and a last row for the bias. *)
Definition param_entry (f : tensor) (bias : nat -> F) (rows cols i j : nat) : F :=
  if (i < rows)%N then nth 0 (flat f) (i * cols + j) else bias j.

(** The sum, over output positions and channels, of the output of a convolution with bias
    for example [b], weighted with [G]: the loss to first order, as a function of the
    parameters. *)
Definition weighted_output (p : padding) (g : seq dim) (x f : tensor) (bias : nat -> F)
    (k : seq nat) (cin cout : nat) (G : tensor) (b : nat) : F :=
  \sum_(o <- indices [seq d_out p d | d <- g]) \sum_(c < cout)
     at_ G (b :: o ++ [:: nat_of_ord c]) * (conv_entry p g x f k cin b o c + bias c).

(** The same for outputs = scale * inputs + shift. *)
Definition weighted_scale_shift (scale : tensor) (shift : option tensor) (x G : tensor) (b : nat) : F :=
  \sum_(i <- indices (behead (shp G)))
     at_ G (b :: i) * (bc_entry scale (b :: i) * bc_entry x (b :: i) +
                       match shift with Some s => bc_entry s (b :: i) | None => 0 end).
End Spec.

(** The strides given to a registration. *)
Definition registered_strides (r : conv_registration) : option (seq nat) :=
  match r with
  | Conv1d s | Conv2dKron s | Conv2dDiagonal s | Conv2dSua s | Depthwise s => Some s
  | Convolution s => s
  end.
Definition is_sua (r : conv_registration) : bool := if r is Conv2dSua _ then true else false.

(** Strides left out, or given with entries around them for the batch and the channels. *)
Definition spelled_in_full (spatial given : option (seq nat)) : Prop :=
  (spatial = None /\ given = None) \/ exists l a c, spatial = Some l /\ given = Some (a :: l ++ [:: c]).
