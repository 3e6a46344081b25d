(** Property theorems C83 - C88: what convolution, scale-and-shift and depthwise layers
    contribute.  [F] is any real closed field; tensors are indexed by lists of naturals. *)
From Coq Require Import String ZArith.
From Coq Require List.
From Verif Require Import Base.Py.
From mathcomp Require Import all_ssreflect all_algebra all_fingroup.
From Verif.Blocks Require Import Spec MatProofs PsdProofs EigProofs EndProofs.
From Verif.Blocks Require Model.
From Verif.Ops Require Import Tensor Model Spec TensorProofs ConvProofs PatchProofs MatrixProofs GradProofs
  SampleProofs LocationProofs ScaleProofs Depthwise DepthwiseSpec DepthwiseProofs.
Set Implicit Arguments.
Unset Strict Implicit.
Unset Printing Implicit Defensive.
Import GRing.Theory Num.Theory.
Local Open Scope ring_scope.

(* ======================================================================= *)
(** ** C83 *)

(** The patches of a convolution layer are a matrix with a row per example and output
    position, filled with what the filter reads there. *)
Theorem C83_patches_are_what_is_read :
  forall (F : rcfType) (fn : patches_fn) (x : tensor F) (fs : seq nat) p strides rates fmt static g k cin,
    patchable fn x fs p strides rates fmt static g k cin ->
    exists patches M, convin_extract fn x fs p strides rates fmt static = Ok patches /\
      convin_patches_flat patches fs = Ok M /\ is_patch_matrix p g x k cin M.
Proof. by move=> F fn x fs p st rt fmt s g k cin; apply: patchable_matrix. Qed.
Print Assumptions C83_patches_are_what_is_read.

(** Multiplying it with the filter, reshaped to a matrix, is the convolution. *)
Theorem C83_convolution_is_a_product :
  forall (F : rcfType) (x f y : tensor F) p strides rates M b o c,
    convolution x f p strides rates = Ok y ->
    let g := geometry (shp x) (shp f) strides rates in
    let k := take (size (shp f) - 2) (shp f) in
    let cout := last 0%N (shp f) in
    is_patch_matrix p g x k (last 0%N (shp x)) M ->
    shp y = head 0%N (shp x) :: [seq d_out p d | d <- g] ++ [:: cout] /\
    ((b < head 0%N (shp x))%N -> in_shape [seq d_out p d | d <- g] o -> (c < cout)%N ->
     at_ y (b :: o ++ [:: c]) =
     \sum_(i < num_entries k * last 0%N (shp x))
       at_ M [:: ravel (head 0%N (shp x) :: [seq d_out p d | d <- g]) (b :: o); nat_of_ord i] *
       nth 0 (flat f) (i * cout + c)).
Proof. by move=> F x f y p st rt M b o c; apply: convolution_product. Qed.
Print Assumptions C83_convolution_is_a_product.

(** The statistic of the input factor, without sub-sampling: the average over examples and
    output positions of the products of patch entries, with a one appended for the bias. *)
Theorem C83_input_statistic :
  forall (F : rcfType) (fn : patches_fn) (x : tensor F) (fs : seq nat) p strides rates fmt static g k cin
         (has_bias : bool) shuffle1 shuffle2,
    patchable fn x fs p strides rates fmt static g k cin ->
    let rows := (head 0%N (shp x) * num_entries [seq d_out p d | d <- g])%N in
    let n := (num_entries k * cin)%N in
    exists C M, convin_new_cov fn (Sampling None None shuffle1 shuffle2) has_bias x fs p strides rates
                  fmt static = Ok C /\
      is_patch_matrix p g x k cin M /\ shp C = [:: (n + has_bias)%N; (n + has_bias)%N] /\
      forall i j, (i < n + has_bias)%N -> (j < n + has_bias)%N ->
        let a r l := if (l < n)%N then at_ M [:: r; l] else 1 in
        at_ C [:: i; j] = (\sum_(r < rows) a (nat_of_ord r) i * a (nat_of_ord r) j) / rows%:R.
Proof.
move=> F fn x fs p st rt fmt s g k cin hb sh1 sh2 hp rows n.
have [t [M [h1 [h2 h3]]]] := patchable_matrix hp.
have hs : shp M = [:: rows; n] by case: h3.
have [t' [e1 [e2 e3]]] := cov_bias hb hs.
exists (compute_cov t'), M; rewrite /convin_new_cov /= h1 /= h2 /= e1 /=.
by split=> //; split=> //; split=> //; rewrite /compute_cov e2.
Qed.
Print Assumptions C83_input_statistic.

(** A 3x2 filter with stride 2 on images of 4x5 pixels with two channels, the same through
    tf.extract_image_patches, and a 1x1 filter. *)
Example C83_hypotheses_met : forall F : rcfType,
  let x : tensor F := Tensor [:: 2; 4; 5; 2]%N (fun idx => (sumn idx)%:R) in
  let f : tensor F := Tensor [:: 3; 2; 2; 3]%N (fun idx => (sumn idx)%:R) in
  let f1 : tensor F := Tensor [:: 1; 1; 2; 3]%N (fun idx => (sumn idx)%:R) in
  (exists y, convolution x f SAME (Some [:: 2; 2]%N) None = Ok y) /\
  patchable ConvolutionPatches x (shp f) SAME (Some [:: 1; 2; 2; 1]%N) None (Some "NHWC"%string) true
    [:: Dim 4 3 2 1; Dim 5 2 2 1] [:: 3; 2]%N 2 /\
  patchable ImagePatches x (shp f) VALID (Some [:: 1; 2; 2; 1]%N) (Some [:: 1; 1; 2; 1]%N) None true
    [:: Dim 4 3 2 1; Dim 5 2 2 2] [:: 3; 2]%N 2 /\
  patchable PointwisePatches x (shp f1) SAME None None None true
    [:: Dim 4 1 1 1; Dim 5 1 1 1] [:: 1; 1]%N 2.
Proof.
move=> F x f f1; split; first by eexists.
split.
  apply: (@by_convolution F x f _ SAME (Some [:: 2; 2]%N) None (Some [:: 1; 2; 2; 1]%N) None); last by left.
  - by right; exists "NHW"%string.
  - by right; exists [:: 2; 2]%N, 1%N, 1%N.
  - by left.
  - reflexivity.
  - by [].
split.
  by apply: (@by_image F x 3 2 2 3 VALID 2 2 (Some [:: 1; 1; 2; 1]%N) 1 2 None true 2 4 5) => //; left.
by apply: (@by_pointwise F x 2 3 SAME None None 1 1 None 2 4 5) => //; left.
Qed.

(* ======================================================================= *)
(** ** C84 *)

(** The diagonal factor of a 2-D convolution: its statistic is the mean over the examples of
    the squared entries of D b, the gradient of example b with respect to the parameters
    (the vector whose product with any parameters is the output for these parameters,
    weighted with the gradients of the output). *)
Theorem C84_mean_squared_gradients :
  forall (F : rcfType) (x G : tensor F) (kh kw cin cout : nat) p (sh sw : nat) dilations (rh rw : nat)
         (has_bias : bool) (b h w : nat),
    shp x = [:: b; h; w; cin] ->
    [&& kh != 0, kw != 0, sh != 0, sw != 0, rh != 0, rw != 0 & cin != 0]%N ->
    dilations = Some [:: 1; rh; rw; 1]%N \/ (dilations = None /\ rh = 1%N /\ rw = 1%N) ->
    let g := [:: Dim h kh sh rh; Dim w kw sw rw] in
    let rows := (num_entries [:: kh; kw] * cin)%N in
    has (d_negative p) g = false ->
    shp G = b :: [seq d_out p d | d <- g] ++ [:: cout] ->
    exists patches C (D : nat -> nat -> nat -> F),
      convdiag_patches x [:: kh; kw; cin; cout] [:: 1; sh; sw; 1]%N dilations p has_bias = Ok patches /\
      convdiag_new_cov patches G = Ok C /\ shp C = [:: (rows + has_bias)%N; cout] /\
      (forall b0 f bias, (b0 < b)%N -> shp f = [:: kh; kw; cin; cout] ->
         (has_bias = false -> forall c, bias c = 0) ->
         weighted_output p g x f bias [:: kh; kw] cin cout G b0 =
         \sum_(i < rows + has_bias) \sum_(c < cout) D b0 i c * param_entry f bias rows cout i c) /\
      (forall i c, (i < rows + has_bias)%N -> (c < cout)%N ->
         at_ C [:: i; c] = (\sum_(b0 < b) D b0 i c ^+ 2) / b%:R).
Proof.
move=> F x G kh kw cin cout p sh sw dil rh rw hb b h w hx hpos hd g rows hg hG.
exact: (diag_statistic hb hx hpos hd hg hG).
Qed.
Print Assumptions C84_mean_squared_gradients.

Example C84_hypotheses_met : forall F : rcfType,
  let g := [:: Dim 4 3 2 1; Dim 5 2 2 2] in
  exists x G : tensor F, shp x = [:: 2; 4; 5; 2]%N /\ has (d_negative VALID) g = false /\
    shp G = [:: 2; 1; 2; 3]%N /\ shp G = 2%N :: [seq d_out VALID d | d <- g] ++ [:: 3]%N.
Proof.
move=> F g; exists (Tensor [:: 2; 4; 5; 2]%N (fun idx => (sumn idx)%:R)).
by exists (Tensor [:: 2; 1; 2; 3]%N (fun idx => (sumn idx)%:R)).
Qed.

(* ======================================================================= *)
(** ** C85 *)

(** Sub-sampling of the examples ([inputs], a fraction) and of the patches ([patches], a
    number and a number per dimension): averaged over the orders that tf.random_shuffle may
    draw, all equally likely, every entry of the statistic is that of the statistic without
    sub-sampling. *)
Theorem C85_sampling_is_unbiased :
  forall (F : rcfType) (fn : patches_fn) (x : tensor F) (fs : seq nat) p strides rates fmt static g k cin
         (has_bias : bool) (inputs : option (nat * nat)) (patches : option (nat * nat * nat)),
    let B := head 0%N (shp x) in
    let osp := [seq d_out p d | d <- g] in
    let n := (num_entries k * cin)%N in
    let m := match inputs with Some (num, den) => ceil_mul num den B | None => B end in
    let N := (m * num_entries osp)%N in
    patchable fn x fs p strides rates fmt static g k cin ->
    B != 0%N -> num_entries osp != 0%N ->
    match inputs with Some (num, den) => (0 < num <= den)%N | None => true end ->
    match patches with Some (most, num, den) => [&& 0 < most, 0 < num & 0 < den]%N | None => true end ->
    exists (C : 'S_B -> 'S_N -> tensor F) (C0 : tensor F),
      (forall s1 s2, convin_new_cov fn (Sampling inputs patches (fun=> shuffled s1) (fun=> shuffled s2))
                       has_bias x fs p strides rates fmt static = Ok (C s1 s2)) /\
      (forall sh1 sh2, convin_new_cov fn (Sampling None None sh1 sh2) has_bias
                       x fs p strides rates fmt static = Ok C0) /\
      forall i j, (i < n + has_bias)%N -> (j < n + has_bias)%N ->
        mean_over_orders (fun s1 => mean_over_orders (fun s2 => at_ (C s1 s2) [:: i; j])) = at_ C0 [:: i; j].
Proof.
move=> F fn x fs p st rt fmt s g k cin hb oin opat B osp n m N h1 h2 h3 h4 h5.
exact: sampling_unbiased.
Qed.
Print Assumptions C85_sampling_is_unbiased.

(** How many rows are used. *)
Theorem C85_rows_used :
  forall (F : rcfType) shuffle most num den (M : tensor F) rows n,
    shp M = [:: rows; n] -> size (shuffle rows) = rows ->
    exists M', subsample_patches shuffle most num den M = Ok M' /\
      shp M' = [:: minn rows (minn most (ceil_mul num den n)); n].
Proof.
move=> F sh most num den M rows n hs hz; rewrite /subsample_patches hs [size _]/= [nth _ _ 0]/= [nth _ _ 1]/= /=.
set m := minn most _; case h: (m < rows)%N; eexists; split; try reflexivity.
  rewrite /random_tensor_gather /tf_gather hs [shp _]/= size_take hz.
  by rewrite h (minn_idPr (ltnW h)).
by rewrite hs (minn_idPl _) // leqNgt h.
Qed.
Print Assumptions C85_rows_used.

(** The constants of the code: a fifth of the examples, and three patches per dimension. *)
Example C85_hypotheses_met : forall F : rcfType,
  let x : tensor F := Tensor [:: 7; 9; 9; 2]%N (fun idx => (sumn idx)%:R) in
  patchable ImagePatches x [:: 3; 3; 2; 3]%N VALID (Some [:: 1; 1; 1; 1]%N) None None true
    [:: Dim 9 3 1 1; Dim 9 3 1 1] [:: 3; 3]%N 2 /\
  head 0%N (shp x) != 0%N /\ num_entries [seq d_out VALID d | d <- [:: Dim 9 3 1 1; Dim 9 3 1 1]] = 49%N /\
  ceil_mul 1 5 7 = 2%N /\ ceil_mul 3 1 18 = 54%N.
Proof.
move=> F x; split=> //.
by apply: (@by_image F x 3 3 2 3 VALID 1 1 None 1 1 None true 7 9 9) => //; right.
Qed.

(* ======================================================================= *)
(** ** C86 *)

(** The number of locations that a block uses is not always the number of positions of the
    layer's output: with dilation the filter is taken for smaller than it is; the
    approximation "kron_sua" forgets the strides; and strides with an entry per spatial
    dimension, which tf.nn.convolution takes, are refused. *)
Theorem C86_locations_counted_refuted :
  (exists inputs fs strides rates g,
     g = geometry inputs fs strides rates /\ num_entries [seq d_out VALID d | d <- g] = 9%N /\
     block_num_locations (Convolution None) inputs fs VALID = Ok (Z.of_nat 25)) /\
  (exists inputs fs strides rates g,
     g = geometry inputs fs (Some strides) rates /\ num_entries [seq d_out SAME d | d <- g] = 4%N /\
     block_num_locations (Conv2dSua (1%N :: strides ++ [:: 1%N])) inputs fs SAME = Ok (Z.of_nat 16)) /\
  (forall (inputs fs l : seq nat) p, ((size inputs == 3) || (size inputs == 4))%N -> size fs = size inputs ->
     size l = (size inputs - 2)%N ->
     block_num_locations (Convolution (Some l)) inputs fs p = Raise IndexError).
Proof.
split; [|split].
- by exists [:: 1; 7; 7; 1]%N, [:: 3; 3; 1; 1]%N, None, (Some [:: 2; 2]%N); eexists; split.
- by exists [:: 1; 4; 4; 1]%N, [:: 3; 3; 1; 1]%N, [:: 2; 2]%N, None; eexists; split.
- exact: spatial_strides_raise.
Qed.
Print Assumptions C86_locations_counted_refuted.

(** It is, for 1-D and 2-D convolutions with SAME padding or without dilation, if strides are
    given in full and the approximation is not "kron_sua" with strides. *)
Theorem C86_locations_counted_partial :
  forall r (inputs fs : seq nat) p strides rates,
    let g := geometry inputs fs strides rates in
    ((size inputs == 3) || (size inputs == 4))%N -> size fs = size inputs ->
    num_entries (take (size inputs - 2) fs) != 0%N ->
    (forall l, strides = Some l -> size l = (size inputs - 2)%N /\ all (fun n => 0 < n)%N l) ->
    (forall l, rates = Some l -> size l = (size inputs - 2)%N) ->
    spelled_in_full strides (registered_strides r) ->
    is_sua r = false \/ strides = Some (nseq (size inputs - 2) 1%N) ->
    p = SAME \/ rates = None \/ rates = Some (nseq (size inputs - 2) 1%N) ->
    num_entries [seq d_out p d | d <- g] != 0%N ->
    block_num_locations r inputs fs p = Ok (Z.of_nat (num_entries [seq d_out p d | d <- g])).
Proof. exact: locations_counted. Qed.
Print Assumptions C86_locations_counted_partial.

Example C86_hypotheses_met :
  let g := geometry [:: 2; 7; 9; 3]%N [:: 3; 2; 3; 5]%N (Some [:: 2; 3]%N) None in
  spelled_in_full (Some [:: 2; 3]%N) (registered_strides (Conv2dKron [:: 1; 2; 3; 1]%N)) /\
  num_entries [seq d_out VALID d | d <- g] = 9%N /\
  block_num_locations (Conv2dKron [:: 1; 2; 3; 1]%N) [:: 2; 7; 9; 3]%N [:: 3; 2; 3; 5]%N VALID = Ok (Z.of_nat 9).
Proof. by split; [right; exists [:: 2; 3]%N, 1%N, 1%N|]. Qed.

(* ======================================================================= *)
(** ** C87 *)

(** Scale-and-shift layers, outputs = scale * inputs + shift, whose inputs are smaller than
    their outputs: the statistic has another size than the variable it is for. *)
Theorem C87_gradients_refuted :
  forall (F : rcfType) (B n : nat) (x G : tensor F),
    (0 < B)%N -> (1 < n)%N -> shp x = [:: B; 1]%N -> shp G = [:: B; n] ->
    bc_shape [:: n] (shp x) = Some (shp G) /\
    exists bscale C,
      register_scale_and_shift_dims [:: n] None (shp x) (shp G) = Ok (bscale, None) /\
      scale_shift_new_cov true x G bscale None = Ok C /\ shp C = [:: n; n] /\
      scale_shift_cov_size (shp x) (shp G) bscale None = 1%N.
Proof.
move=> F B n x G B0 n1 hx hG.
have hn1 : (n == 1%N) = false by rewrite gtn_eqF.
have h1n : (1%N == n) = false by rewrite eq_sym.
split; first by rewrite hx hG /bc_shape /= hn1; case: eqP => // <-.
exists [::]; rewrite /register_scale_and_shift_dims /broadcast_dims hx hG /=.
have -> : (n < 1)%N = false by rewrite ltnNge ltnW.
rewrite /scale_shift_new_cov /scale_shift_grads hx hG /= (ltnW n1) /=.
rewrite /tf_multiply /tf_binary hx hG /bc_shape /= h1n eqxx /=.
rewrite /tf_reduce_sum /= /tf_reshape /infer_dims /= muln1 -lt0n B0 /=.
rewrite !muln1 dvdn_mulr // /= mulKn // [(n * 1)%N]muln1 eqxx /=.
by eexists; split; [|split].
Qed.
Print Assumptions C87_gradients_refuted.

(** Inputs of the same shape as the outputs, with a scale that does not enlarge them: there
    are gradients D b, one for each example, of the loss to first order with respect to the
    entries of scale and shift, and the statistic has the declared size and is the mean of
    their products, or of their squares. *)
Theorem C87_gradients_partial :
  forall (F : rcfType) (x G : tensor F) scale shift B (d : seq nat) bscale bshift,
    register_scale_and_shift_dims scale shift (shp x) (shp G) = Ok (bscale, bshift) ->
    shp x = B :: d -> shp G = B :: d -> all (fun n => 0 < n)%N (B :: d) ->
    bc_shape scale (B :: d) = Some (B :: d) ->
    let n := (num_entries scale + if shift is Some s then num_entries s else 0)%N in
    exists (D : nat -> nat -> F) C1 C2,
      (forall b t u, (b < B)%N -> shp t = scale -> omap (@shp F) u = shift ->
         weighted_scale_shift t u x G b =
         \sum_(i < n) D b i * nth 0 (flat t ++ if u is Some u' then flat u' else [::]) i) /\
      scale_shift_cov_size (shp x) (shp G) bscale bshift = n /\
      scale_shift_new_cov true x G bscale bshift = Ok C1 /\ shp C1 = [:: n; n] /\
      scale_shift_new_cov false x G bscale bshift = Ok C2 /\ shp C2 = [:: n] /\
      (forall i j, at_ C1 [:: i; j] = (\sum_(b < B) D b i * D b j) / B%:R) /\
      (forall i, at_ C2 [:: i] = (\sum_(b < B) D b i ^+ 2) / B%:R).
Proof.
move=> F x G scale shift B d bs bh h1 h2 h3 h4 h5 n.
have [R [e1 [e2 [e3 e4]]]] := scale_shift_rows h1 h2 h3 h4 h5.
exists (fun b i => at_ R [:: b; i]), (compute_cov R), (mean_square R).
split; first exact: e4.
split=> //; rewrite /scale_shift_new_cov e1 /=; split=> //; split; first by rewrite /compute_cov e2.
split=> //; split; first by rewrite /mean_square e2.
by split=> [i j|i]; [exact: (compute_covE _ _ e2)|exact: (mean_squareE _ e2)].
Qed.
Print Assumptions C87_gradients_partial.

(** A scale per channel and one shift for each row. *)
Example C87_hypotheses_met :
  register_scale_and_shift_dims [:: 3]%N (Some [:: 1; 4; 1]%N) [:: 2; 4; 3]%N [:: 2; 4; 3]%N =
    Ok ([:: 1]%N, Some [:: 2]%N) /\
  bc_shape [:: 3]%N [:: 2; 4; 3]%N = Some [:: 2; 4; 3]%N.
Proof. by []. Qed.

(* ======================================================================= *)
(** ** C88 *)

(** Depthwise convolutions, as Kronecker factored blocks: with correlated channels the
    curvature of one channel reaches the others, and the inverse does not undo the
    multiplication. *)
Theorem C88_depthwise_refuted :
  forall (F : rcfType) (eigh : forall n, 'M[F]_n -> 'rV[F]_n * 'M[F]_n) (pow : F -> F -> F)
         (threshold : nat) (clip : F) (meth : Blocks.Model.posdef_inv_method),
    eigh_contract eigh -> power_laws pow -> clip <= 0 ->
    exists (A : 'M[F]_(1 * 2)) (G : 'M[F]_(2 * 1)) inputs outputs (v w : 'M[F]_(1 * 2, 1)),
      [/\ psd A, psd G,
          up_to_date eigh pow threshold clip meth [:: Blocks.Model.RegMatpower (-1) 0] (fun=> 1) A inputs
        & up_to_date eigh pow threshold clip meth [:: Blocks.Model.RegMatpower (-1) 0] (fun=> 1) G outputs] /\
      let multiply := depthwise_multiply_matpower pow
                        (fun e => Blocks.Model.get_matpower inputs (fun=> 1) e 0)
                        (fun e => Blocks.Model.get_matpower outputs (fun=> 1) e 0) 1 in
      multiply v 1 = Ok w /\
      channel (1 : 'I_2) v = 0 /\ channel (1 : 'I_2) w != 0 /\
      exists u, multiply w (-1) = Ok u /\ u != v.
Proof.
move=> F eigh pow th clip meth he hp hc.
have [sA uA] := up_to_date_exists eigh pow th clip meth [:: Blocks.Model.RegMatpower (-1) 0] (fun=> 1) (ones F 2).
have [sG uG] := up_to_date_exists eigh pow th clip meth [:: Blocks.Model.RegMatpower (-1) 0] (fun=> 1) (ones F 2).
have i0 : List.In (Blocks.Model.RegMatpower (-1) 0) [:: Blocks.Model.RegMatpower (-1 : F) 0] by left.
have [m1 m2] := @depthwise_served F eigh pow he hp th clip meth hc 1 2 1 _ _ (fun=> 1) (fun=> 1)
  (ones F 2) (ones F 2) sA sG 0 0 1 uA uG (ones_psd F 2) (ones_psd F 2) ltr01 ltr01 ltr01 i0 i0.
have e (ch : 'I_2) : Blocks.Model.rm_pos (0 : 'I_1) ch = ch :> 'I_(1 * 2) by apply: val_inj.
exists (ones F 2), (ones F 2), sA, sG, (first_channel F); eexists; split.
  by split; [exact: ones_psd|exact: ones_psd| |].
split; first exact: m1; split; [|split].
- by apply/matrixP => q j; rewrite !ord1 !mxE.
- apply/eqP => /matrixP /(_ 0 0); rewrite mxE e spread mxE /= => /eqP.
  by rewrite oner_eq0.
eexists; split; [exact: m2|exact: not_undone].
Qed.
Print Assumptions C88_depthwise_refuted.

(** If neither the inputs of different channels nor the gradients of their outputs are
    correlated, the inverse undoes the multiplication. *)
Theorem C88_inverse_undoes_multiply_partial :
  forall (F : rcfType) (eigh : forall n, 'M[F]_n -> 'rV[F]_n * 'M[F]_n) (pow : F -> F -> F)
         (threshold : nat) (clip : F) (meth : Blocks.Model.posdef_inv_method) (k c n : nat)
         (regsA regsG : seq (Blocks.Model.registration F)) (dampA dampG : nat -> F)
         (A : 'M[F]_(k * c)) (G : 'M[F]_(c * n)) inputs outputs (ia ig : nat) (renorm e e' : F)
         (v : 'M[F]_(k * c, n)),
    eigh_contract eigh -> power_laws pow -> clip <= 0 ->
    up_to_date eigh pow threshold clip meth regsA dampA A inputs ->
    up_to_date eigh pow threshold clip meth regsG dampG G outputs ->
    psd A -> psd G -> 0 < dampA ia -> 0 < dampG ig -> 0 < renorm ->
    List.In (Blocks.Model.RegMatpower (-1) ia) regsA -> List.In (Blocks.Model.RegMatpower (-1) ig) regsG ->
    in_uncorrelated A -> out_uncorrelated G -> (e = 1 /\ e' = -1) \/ (e = -1 /\ e' = 1) ->
    let multiply := depthwise_multiply_matpower pow
                      (fun e => Blocks.Model.get_matpower inputs dampA e ia)
                      (fun e => Blocks.Model.get_matpower outputs dampG e ig) renorm in
    exists w, multiply v e = Ok w /\ multiply w e' = Ok v.
Proof.
move=> F eigh pow th clip meth k c n rA rG dA dG A G sA sG ia ig r e e' v he hp hc uA uG pA pG a0 g0 r0 iA iG cA cG hee.
exact: (depthwise_undoes he hp hc uA uG pA pG a0 g0 r0 iA iG).
Qed.
Print Assumptions C88_inverse_undoes_multiply_partial.

(** If either are uncorrelated, each channel is multiplied by itself, with the parts of the
    factors that concern it. *)
Theorem C88_each_channel_partial :
  forall (F : rcfType) (eigh : forall n, 'M[F]_n -> 'rV[F]_n * 'M[F]_n) (pow : F -> F -> F)
         (threshold : nat) (clip : F) (meth : Blocks.Model.posdef_inv_method) (k c n : nat)
         (regsA regsG : seq (Blocks.Model.registration F)) (dampA dampG : nat -> F)
         (A : 'M[F]_(k * c)) (G : 'M[F]_(c * n)) inputs outputs (ia ig : nat) (renorm : F)
         (v : 'M[F]_(k * c, n)),
    eigh_contract eigh -> power_laws pow -> clip <= 0 ->
    up_to_date eigh pow threshold clip meth regsA dampA A inputs ->
    up_to_date eigh pow threshold clip meth regsG dampG G outputs ->
    psd A -> psd G -> 0 < dampA ia -> 0 < dampG ig -> 0 < renorm ->
    List.In (Blocks.Model.RegMatpower (-1) ia) regsA -> List.In (Blocks.Model.RegMatpower (-1) ig) regsG ->
    in_uncorrelated A \/ out_uncorrelated G ->
    exists w, depthwise_multiply_matpower pow
                (fun e => Blocks.Model.get_matpower inputs dampA e ia)
                (fun e => Blocks.Model.get_matpower outputs dampG e ig) renorm v 1 = Ok w /\
      forall ch, channel ch w = renorm *: ((in_block ch A + dampA ia *: 1%:M) *m channel ch v *m
                                           (out_block ch G + dampG ig *: 1%:M)).
Proof.
move=> F eigh pow th clip meth k c n rA rG dA dG A G sA sG ia ig r v he hp hc uA uG pA pG a0 g0 r0 iA iG cAG.
have [m1 _] := @depthwise_served F eigh pow he hp th clip meth hc k c n _ _ dA dG A G sA sG ia ig r uA uG pA pG a0 g0 r0 iA iG.
eexists; split; first exact: m1.
by move=> ch; rewrite (depthwise_channel he hp hc uA uG pA pG a0 g0 r0 iA iG ch cAG (m1 v)).
Qed.
Print Assumptions C88_each_channel_partial.

(** The diagonal block multiplies each entry of the filter with the entry of the diagonal for
    the same position, channel and output, so that the reciprocals undo it. *)
Theorem C88_diagonal_block :
  forall (F : rcfType) (k c n : nat) (d d' : 'rV[F]_(k * c * (c * n))) (v : 'M[F]_(k * c, n)),
    (forall p ch j, let q := Blocks.Model.rm_pos (Blocks.Model.rm_pos p ch) (Blocks.Model.rm_pos ch j) in
       depthwise_diagonal_multiply (Blocks.Model.DiagOp d) v (Blocks.Model.rm_pos p ch) j = d 0 q * v (Blocks.Model.rm_pos p ch) j) /\
    ((forall q, d' 0 q * d 0 q = 1) ->
     depthwise_diagonal_multiply (Blocks.Model.DiagOp d')
       (depthwise_diagonal_multiply (Blocks.Model.DiagOp d) v) = v).
Proof.
move=> F k c n d d' v; split=> [p ch j q|h].
  by rewrite depthwise_diagonal_entries rm_colK.
by apply/matrixP => r j; rewrite !depthwise_diagonal_entries mulrA h mul1r.
Qed.
Print Assumptions C88_diagonal_block.

(** Two positions and two channels; the positions are correlated, the channels are not. *)
Example C88_hypotheses_met : forall F : rcfType,
  exists (A : 'M[F]_(2 * 2)) inputs (G : 'M[F]_(2 * 1)) outputs,
    [/\ psd A, psd G, in_uncorrelated A & out_uncorrelated G] /\
    A (Blocks.Model.rm_pos (0 : 'I_2) (0 : 'I_2)) (Blocks.Model.rm_pos (1 : 'I_2) (0 : 'I_2)) = 1 /\
    up_to_date (@an_eigh F) (@a_pow F) 4 0 Blocks.Model.CholeskyMethod [:: Blocks.Model.RegMatpower (-1) 0]
      (fun=> 2^-1) A inputs /\
    up_to_date (@an_eigh F) (@a_pow F) 4 0 Blocks.Model.CholeskyMethod [:: Blocks.Model.RegMatpower (-1) 0]
      (fun=> 2^-1) G outputs.
Proof.
move=> F.
pose E : 'M[F]_(2 * 2, 2) := \matrix_(r, ch) (Blocks.Model.rm_col r == ch)%:R.
pose A := E *m E^T.
have hA p q (ch ch' : 'I_2) : A (Blocks.Model.rm_pos p ch) (Blocks.Model.rm_pos q ch') = (ch == ch')%:R.
  rewrite mxE (bigD1 ch) //= !mxE !rm_colK eqxx mul1r eq_sym big1 ?addr0 // => i hi.
  by rewrite !mxE rm_colK eq_sym (negPf hi) mul0r.
have [s h] := up_to_date_exists (@an_eigh F) (@a_pow F) 4 0 Blocks.Model.CholeskyMethod
  [:: Blocks.Model.RegMatpower (-1) 0] (fun=> 2^-1) A.
have [t h'] := up_to_date_exists (@an_eigh F) (@a_pow F) 4 0 Blocks.Model.CholeskyMethod
  [:: Blocks.Model.RegMatpower (-1) 0] (fun=> 2^-1) (1 *: 1%:M : 'M[F]_(2 * 1)).
exists A, s, (1 *: 1%:M), t; split; last by rewrite hA.
split; [exact: psd_gram|by apply: psd_scalar; rewrite ler01| |].
- by move=> p q ch ch' hne; rewrite hA (negPf hne).
- by move=> i j ch ch' hne; rewrite !mxE rm_pos_eq (negPf hne) mulr0.
Qed.
