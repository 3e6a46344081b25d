(** Model of the blocks and factors for layers that are used several times (for example at
    every step of a recurrent network): kfac/python/ops/fisher_blocks.py:1330-1842 and
    kfac/python/ops/fisher_factors.py:2497-2837, with utils.posdef_eig (utils.py:325-349).
    As in Blocks/Model.v entries lie in an arbitrary real closed field. *)
From mathcomp Require Import all_ssreflect all_algebra.
From Verif.Base Require Import Py.
From Verif.Blocks Require Import Model.
Set Implicit Arguments.
Unset Strict Implicit.
Unset Printing Implicit Defensive.
Import GRing.Theory Num.Theory.
Local Open Scope ring_scope.

(* ------------------------------------------------------------------------ *)
(** * The data of a layer with several uses *)

(** A tensor of shape [num_uses * batch, ...] is the list of its rows, one of shape
    [num_uses, batch, ...] a list of lists of rows. *)
Inductive tensor (X : Type) :=
| Rank2 of seq X
| Rank3 of seq (seq X).
(** What was registered for one side of the layer (fisher_blocks.py:1344-1355): a list over
    towers of lists over uses of tensors, or a list over towers of tensors.  Simplification:
    the towers (and the sources) all have the same format as the first one, which is the one
    the code looks at. *)
Inductive side (X : Type) :=
| ByUse of seq (seq (seq X))
| ByTower of seq (tensor X).
(** The gradients have one more dimension, the sources. *)
Inductive grads (X : Type) :=
| GByUse of seq (seq (seq (seq X)))
| GByTower of seq (seq (tensor X)).

(** TOWER_STRATEGY, fisher_factors.py:113-119 *)
Inductive tower_strategy := Concat | Separate | OtherStrategy.

Section Data.
Variables (X Y : Type).

(** Python's [zip] applied to a list of lists: stops at the shortest. *)
Fixpoint zip_lists Z (fuel : nat) (l : seq (seq Z)) : seq (seq Z) :=
  match fuel with
  | 0 => [::]
  | f.+1 => if all (fun x => 0 < size x)%N l
            then pmap ohead l :: zip_lists f (map behead l)
            else [::]
  end.
Definition zip_star Z (l : seq (seq Z)) : seq (seq Z) :=
  match l with
  | [::] => [::]
  | x :: _ => zip_lists (size x) l
  end.

(** utils.PartitionedTensor of some tensors (utils.py:1038-1070), which converts to their
    concatenation along the first dimension.  Simplification: dtypes and feature shapes agree. *)
Definition partitioned Z (tensors : seq (seq Z)) : res (tensor Z) :=
  match tensors with
  | [::] => Raise ValueError
  | _ => Ok (Rank2 (flatten tensors))
  end.
Fixpoint map_res A B (f : A -> res B) (l : seq A) : res (seq B) :=
  match l with
  | [::] => Ok [::]
  | a :: l' => do b <- f a; do bs <- map_res f l'; Ok (b :: bs)
  end.

(** One list over towers of lists over uses (1403-1423, and 1447-1472 for each source). *)
Definition merge_towers Z (strategy : tower_strategy) (towers : seq (seq (seq Z)))
  : res (seq (tensor Z)) :=
  match strategy with
  | Concat => do t <- partitioned (flatten (zip_star towers)); Ok [:: t]
  | Separate => map_res (@partitioned Z) towers
  | OtherStrategy => Raise ValueError
  end.

(** 1386-1426: the inputs; [num_uses] is [self._num_uses], its new value is returned. *)
Definition process_inputs (strategy : tower_strategy) (num_uses : option nat) (inputs : side X)
  : res (seq (tensor X) * option nat) :=
  match inputs with
  | ByUse [::] => Raise IndexError
  | ByUse ((first :: _) as towers0) =>
      let towers := towers0 in
      let n := size first in
      if (match num_uses with Some k => k != n | None => false end) then Raise ValueError
      else if ~~ all (fun t => size t == n) towers then Raise ValueError
      else do ts <- merge_towers strategy towers; Ok (ts, Some n)
  | ByTower [::] => Raise IndexError
  | ByTower ts => Ok (ts, num_uses)
  end.
(** 1428-1476: the gradients *)
Definition process_grads (strategy : tower_strategy) (num_uses : option nat) (g : grads Y)
  : res (seq (seq (tensor Y)) * option nat) :=
  match g with
  | GByUse [::] | GByUse ([::] :: _) => Raise IndexError
  | GByUse (((first :: _) :: _) as sources) =>
      let n := size first in
      if (match num_uses with Some k => k != n | None => false end) then Raise ValueError
      else if ~~ all (fun s => all (fun t => size t == n) s) sources then Raise ValueError
      else do gs <- map_res (merge_towers strategy) sources; Ok (gs, Some n)
  | GByTower [::] | GByTower ([::] :: _) => Raise IndexError
  | GByTower gs => Ok (gs, num_uses)
  end.
(** 1337-1484: the result has the number of uses as third component. *)
Definition process_data (strategy : tower_strategy) (num_uses : option nat) (inputs : side X)
    (g : grads Y) : res (seq (tensor X) * seq (seq (tensor Y)) * nat) :=
  do (ts, k1) <- process_inputs strategy num_uses inputs;
  do (gs, k2) <- process_grads strategy k1 g;
  match k2 with
  | None => Raise ValueError
  | Some k => Ok (ts, gs, k)
  end.
End Data.

(* ------------------------------------------------------------------------ *)
(** * FullyConnectedMultiKF: statistics  (fisher_factors.py:2533-2611) *)

(** [tf.reshape(tensor, [-1, tensor.shape[2]])] for a tensor of rank 3 (2584-2585, 2593-2594) *)
Definition tensor_rows X (t : tensor X) : seq X :=
  match t with
  | Rank2 rows => rows
  | Rank3 uses => flatten uses
  end.
(** 2533-2540; all uses of a rank 3 tensor have the same number of rows *)
Definition multi_partial_batch_size X (num_uses : nat) (t : tensor X) : nat :=
  match t with
  | Rank2 rows => (size rows %/ num_uses)%N
  | Rank3 uses => size (head [::] uses)
  end.

(** 2601-2605: the rows of the present and of the future.  [tensor[:-0]] is empty. *)
Definition present_rows X (num_uses : nat) (rows : seq X) : seq X :=
  let batch_size := (size rows %/ num_uses)%N in
  if batch_size == 0%N then [::] else take (size rows - batch_size) rows.
Definition future_rows X (num_uses : nat) (rows : seq X) : seq X :=
  drop (size rows %/ num_uses) rows.

Section Statistics.
Variable F : rcfType.

(** compute_cov with [tensor_right] and [normalizer] (219-244); tf.matmul refuses tensors with
    different numbers of rows. *)
Definition compute_cov_right n (left right : seq 'rV[F]_n) (normalizer : nat) : res 'M[F]_n :=
  if size left == size right
  then Ok (normalizer%:R^-1 *: \sum_(p <- zip left right) p.1^T *m p.2)
  else Raise InvalidArgumentError.

(** 2582-2589 *)
Definition multi_new_cov n (t : tensor 'rV[F]_n) : 'M[F]_n := compute_cov (tensor_rows t).
Definition multi_new_cov_bias n (t : tensor 'rV[F]_n) : 'M[F]_(n + 1) :=
  compute_cov (map (@append_homog F n) (tensor_rows t)).
(** 2591-2611 *)
Definition new_cov_dt1 n (num_uses : nat) (rows : seq 'rV[F]_n) : res 'M[F]_n :=
  compute_cov_right (future_rows num_uses rows) (present_rows num_uses rows) (size rows).
Definition multi_new_cov_dt1 n (num_uses : nat) (t : tensor 'rV[F]_n) : res 'M[F]_n :=
  new_cov_dt1 num_uses (tensor_rows t).
Definition multi_new_cov_dt1_bias n (num_uses : nat) (t : tensor 'rV[F]_n) : res 'M[F]_(n + 1) :=
  new_cov_dt1 num_uses (map (@append_homog F n) (tensor_rows t)).
(** DiagonalMultiKF, 1264-1277, dense inputs *)
Definition multi_diag_new_cov n (t : tensor 'rV[F]_n) : 'rV[F]_n := diagkron_new_cov (tensor_rows t).
Definition multi_diag_new_cov_bias n (t : tensor 'rV[F]_n) : 'rV[F]_(n + 1) :=
  diagkron_new_cov_bias (tensor_rows t).
End Statistics.

(** 2613-2620, 2625-2628: the shapes of the variables that hold the matrices and the vectors;
    [shape] is the shape of the first tensor.  A tensor of another rank leaves [size] undefined. *)
Definition multi_cov_size (shape : seq nat) (has_bias : bool) : res nat :=
  match shape with
  | [:: _; n] | [:: _; _; n] => Ok (n + has_bias)%N
  | _ => Raise RuntimeError
  end.
Definition multi_vec_size (shape : seq nat) (has_bias : bool) : res nat :=
  match shape with
  | _ :: n :: _ => Ok (n + has_bias)%N
  | _ => Raise IndexError
  end.
(** 2674-2732 and 2786-2787, 2830-2832: the vector psi (mu) of the size of the matrices is
    assigned to a variable of the second size; assigning to a variable of another shape is an
    error when the graph is built. *)
Definition assign_series_vector (shape : seq nat) (has_bias : bool) : res unit :=
  do m <- multi_cov_size shape has_bias;
  do v <- multi_vec_size shape has_bias;
  if m == v then Ok tt else Raise ValueError.

(* ------------------------------------------------------------------------ *)
(** * FullyConnectedMultiKF: the quantities for the time series approximations
      (fisher_factors.py:2734-2837) *)
Inductive posdef_eig_method := SelfAdjoint | Svd.
Inductive series_option := Option1 | Option2 | OtherOption.

Section Quantities.
Variable F : rcfType.
(** tf.self_adjoint_eig, tf.svd (singular values, left and right singular vectors), tf.pow *)
Variable eigh : forall n, 'M[F]_n -> 'rV[F]_n * 'M[F]_n.
Variable svd : forall n, 'M[F]_n -> 'rV[F]_n * 'M[F]_n * 'M[F]_n.
Variable pow : F -> F -> F.

(** utils.py:325-349 *)
Definition posdef_eig (meth : posdef_eig_method) n (M : 'M[F]_n) : 'rV[F]_n * 'M[F]_n :=
  match meth with
  | SelfAdjoint => let (evals, evecs) := eigh M in (\row_j `|evals 0 j|, evecs)
  | Svd => let '(evals, evecs, _) := svd M in (evals, evecs)
  end.

(** 2766-2770, 2796-2800 *)
Definition invsqrt_cov n (eigen : 'rV[F]_n * 'M[F]_n) (damping : F) : 'M[F]_n :=
  let invsqrtC0 := eig_recompose eigen.2 (\row_j pow (eigen.1 0 j + damping) (- 2^-1)) in
  2^-1 *: (invsqrtC0 + invsqrtC0^T).

Record option1_quants n := Option1Quants { q1_L : 'M[F]_n; q1_psi : 'rV[F]_n }.
Record option2_quants n := Option2Quants { q2_P : 'M[F]_n; q2_K : 'M[F]_n; q2_mu : 'rV[F]_n }.

(** 2772-2784: what is computed from the current [C1]; the next iteration sees the symmetrised
    [C1], the last component. *)
Definition option1_iteration (meth : posdef_eig_method) n (eigen : 'rV[F]_n * 'M[F]_n)
    (C1 : 'M[F]_n) (damping : F) : option1_quants n * 'M[F]_n :=
  let invsqrtC0 := invsqrt_cov eigen damping in
  let C1 := 2^-1 *: (C1 + C1^T) in
  let hPsi := invsqrtC0 *m C1 *m invsqrtC0 in
  let (psi, U) := posdef_eig meth hPsi in
  (Option1Quants (invsqrtC0 *m U) psi, C1).
(** 2802-2828 *)
Definition option2_iteration n (eigen : 'rV[F]_n * 'M[F]_n) (C1 : 'M[F]_n) (damping : F)
  : option2_quants n :=
  let invsqrtC0 := invsqrt_cov eigen damping in
  let invsqrtC0C1 := invsqrtC0 *m C1 in
  let hPsi := invsqrtC0C1 *m invsqrtC0 in
  let '(sqrtmu, _, E) := svd hPsi in
  let mu := \row_j Num.min ((sqrtmu 0 j) ^+ 2) 1 in
  Option2Quants (invsqrtC0C1^T *m invsqrtC0) (invsqrtC0 *m E) mu.

(** The two loops (2760-2787, 2789-2832), over the dampings in the order of registration. *)
Fixpoint option1_loop (meth : posdef_eig_method) n (eigen : 'rV[F]_n * 'M[F]_n)
    (damp : nat -> F) (ids : seq nat) (C1 : 'M[F]_n) : seq (nat * option1_quants n) * 'M[F]_n :=
  match ids with
  | [::] => ([::], C1)
  | id :: ids' =>
      let (q, C1) := option1_iteration meth eigen C1 (damp id) in
      let (qs, C1) := option1_loop meth eigen damp ids' C1 in
      ((id, q) :: qs, C1)
  end.
Definition option2_loop n (eigen : 'rV[F]_n * 'M[F]_n) (damp : nat -> F) (ids : seq nat)
    (C1 : 'M[F]_n) : seq (nat * option2_quants n) :=
  [seq (id, option2_iteration eigen C1 (damp id)) | id <- ids].

(** The variables after the op made by 2734-2837 ran with covariances [C0] and [C1]; [ids1]
    and [ids2] are the dampings registered for the two options (2664-2672), [clip] is
    EIGENVALUE_CLIPPING_THRESHOLD. *)
Record series_quants n := SeriesQuants {
  sq_option1 : seq (nat * option1_quants n);
  sq_option2 : seq (nat * option2_quants n) }.
Definition series_update (meth : posdef_eig_method) (clip : F) n (ids1 ids2 : seq nat)
    (damp : nat -> F) (C0 C1 : 'M[F]_n) : series_quants n :=
  let eigen := get_eigendecomp eigh clip (set_cov (dense_init F n) C0) in
  let (q1, C1) := option1_loop meth eigen damp ids1 C1 in
  SeriesQuants q1 (option2_loop eigen damp ids2 C1).

(** 2630-2636 *)
Definition get_option1quants n (s : series_quants n) (id : nat) : res (option1_quants n) :=
  match dict_get (sq_option1 s) id with Some q => Ok q | None => Raise KeyError end.
Definition get_option2quants n (s : series_quants n) (id : nat) : res (option2_quants n) :=
  match dict_get (sq_option2 s) id with Some q => Ok q | None => Raise KeyError end.

(* ------------------------------------------------------------------------ *)
(** * FullyConnectedSeriesFB  (fisher_blocks.py:1639-1842) *)

(** 1707-1721: which quantities a block registers with its factors *)
Definition series_register_matpower (option : series_option) (exp : F) : res series_option :=
  if exp != -1 then Raise NotImplementedErr
  else match option with
       | OtherOption => Raise ValueError
       | o => Ok o
       end.

(** 1744-1750 *)
Definition gamma (num_timesteps : nat) (x : F) : F :=
  (1 - x) ^+ 2 / (num_timesteps%:R * (1 - x ^+ 2) - 2%:R * x * (1 - x ^+ num_timesteps)).

(** 1736-1776, with [Z] transposed *)
Definition series_option1 (num_timesteps : nat) k n (A : option1_quants k) (G : option1_quants n)
    (Z : 'M[F]_(n, k)) : 'M[F]_(n, k) :=
  let Y := \matrix_(i, j) gamma num_timesteps (q1_psi G 0 i * q1_psi A 0 j) in
  let Z := (q1_L G)^T *m (Z *m q1_L A) in
  let Z := \matrix_(i, j) (Z i j * Y i j) in
  q1_L G *m (Z *m (q1_L A)^T).
(** 1777-1827 *)
Definition series_option2 (num_timesteps : nat) k n (A : option2_quants k) (G : option2_quants n)
    (Z : 'M[F]_(n, k)) : 'M[F]_(n, k) :=
  let Z := Z - q2_P G *m (Z *m (q2_P A)^T) in
  let Z := (q2_K G)^T *m (Z *m q2_K A) in
  let tmp i j := 1 - q2_mu G 0 i * q2_mu A 0 j in
  let tmp i j := tmp i j + (tmp i j == 0)%:R in
  let Z := \matrix_(i, j) (Z i j / tmp i j) in
  let Z := q2_K G *m (Z *m (q2_K A)^T) in
  let Z := Z - (q2_P G)^T *m (Z *m q2_P A) in
  num_timesteps%:R^-1 *: Z.

(** 1723-1832; [input] and [output] are the variables of the two factors, [ia] and [ig] the
    ids of the dampings.  With an unknown option nothing is applied (registering fails before,
    1718-1721). *)
Definition series_multiply_matpower (option : series_option) (num_timesteps : nat) m n has_bias
    (input : series_quants (rows m has_bias)) (output : series_quants n) (ia ig : nat)
    (vector : params F m n has_bias) (exp : F) : res (params F m n has_bias) :=
  if exp != -1 then Raise NotImplementedErr
  else
    let Z := (layer_params_to_mat2d vector)^T in
    do Z <- match option with
            | Option1 =>
                do A <- get_option1quants input ia;
                do G <- get_option1quants output ig;
                Ok (series_option1 num_timesteps A G Z)
            | Option2 =>
                do A <- get_option2quants input ia;
                do G <- get_option2quants output ig;
                Ok (series_option2 num_timesteps A G Z)
            | OtherOption => Ok Z
            end;
    Ok (mat2d_to_layer_params Z^T).
(** 1836-1842 *)
Definition series_multiply_cholesky m n has_bias (vector : params F m n has_bias)
  : res (params F m n has_bias) := Raise NotImplementedErr.
Definition series_multiply_cholesky_inverse m n has_bias (vector : params F m n has_bias)
  : res (params F m n has_bias) := Raise NotImplementedErr.

(* ------------------------------------------------------------------------ *)
(** * FullyConnectedMultiIndepFB  (fisher_blocks.py:1487-1547): KroneckerProductFB with this
      scaling (1545-1547) and damping normalised by the number of uses (1543). *)
Definition multi_indep_renorm (num_uses : nat) : F := num_uses%:R.
Definition multi_indep_damping (pt : pi_type) (power : F) m n (input_cov : linop F m)
    (output_cov : linop F n) (damping : F) (num_uses : nat) : res (F * F) :=
  setup_damping pow pt power input_cov output_cov damping (Some num_uses%:R).
End Quantities.

(* ------------------------------------------------------------------------ *)
(** * ConvKFCBasicMultiIndepFB  (fisher_blocks.py:1550-1630) *)

(** A Python value passed for [sub_sample_inputs]. *)
Inductive py_arg := PyNone | PyBool of bool | PyInt of nat.
Definition truthy (a : py_arg) : bool :=
  match a with PyNone => false | PyBool b => b | PyInt n => n != 0%N end.
(** 1615-1620 and fisher_factors.py:1940-1967: the tenth positional argument of the factor,
    [sub_sample_inputs], is [self._num_uses]. *)
Definition conv_multi_sub_sample_inputs (num_uses : nat) : py_arg := PyInt num_uses.
(** ConvKFCBasicFB has an option for this and passes it on (fisher_blocks.py:1077-1082); its
    default is None. *)
Definition conv_basic_sub_sample_inputs : py_arg := PyNone.
(** fisher_factors.py:1799-1802; [dflt] is the module's _SUB_SAMPLE_INPUTS *)
Definition sub_sample_inputs_setting (dflt : bool) (arg : py_arg) : bool :=
  match arg with PyNone => dflt | a => truthy a end.
(** 1847-1865: the inputs from which patches are extracted; [factor] = (p, q) is
    _INPUTS_TO_EXTRACT_PATCHES_FACTOR = p / q, [shuffled] the result of the random shuffle of
    the indices. *)
Definition sub_sampled_size (factor : nat * nat) (batch_size : nat) : nat :=
  ((batch_size * factor.1 + factor.2.-1) %/ factor.2)%N.
Definition conv_factor_inputs X (setting : bool) (factor : nat * nat) (shuffled : seq nat)
    (d : X) (inputs : seq X) : seq X :=
  if setting
  then [seq nth d inputs i | i <- take (sub_sampled_size factor (size inputs)) shuffled]
  else inputs.
