(** Model of the numerical part of kfac/python/ops/fisher_factors.py and
    kfac/python/ops/fisher_blocks.py, of kfac/python/ops/linear_operator.py and of the
    matrix functions of kfac/python/ops/utils.py.  Entries lie in an arbitrary real closed
    field (simplification: exact arithmetic, no rounding); sizes are static. *)
From mathcomp Require Import all_ssreflect all_algebra.
From Verif.Base Require Import Py.
Set Implicit Arguments.
Unset Strict Implicit.
Unset Printing Implicit Defensive.
Import GRing.Theory Num.Theory.
Local Open Scope ring_scope.

(* ------------------------------------------------------------------------ *)
(** * Row-major positions (TensorFlow's layout) *)

Lemma rm_row_proof m n (k : 'I_(m * n)) : (k %/ n < m)%N.
Proof. by move: m n k => [_ [] //|m] [|n] k; rewrite ?divn0 // ltn_divLR. Qed.
Lemma rm_col_proof m n (k : 'I_(m * n)) : (k %% n < n)%N.
Proof. by rewrite ltn_mod; case: n k => //; rewrite muln0 => [[]]. Qed.
Lemma rm_pos_proof m n (i : 'I_m) (j : 'I_n) : (i * n + j < m * n)%N.
Proof.
by apply: leq_trans (_ : i.+1 * n <= _)%N; rewrite ?leq_mul2r ?ltn_ord ?orbT //
  mulSn addnC ltn_add2r.
Qed.
(** Position [k] of a row-major m-by-n array is at row k div n, column k mod n. *)
Definition rm_row m n (k : 'I_(m * n)) : 'I_m := Ordinal (rm_row_proof k).
Definition rm_col m n (k : 'I_(m * n)) : 'I_n := Ordinal (rm_col_proof k).
Definition rm_pos m n (i : 'I_m) (j : 'I_n) : 'I_(m * n) := Ordinal (rm_pos_proof i j).

Section Matrices.
Variable F : rcfType.

(** [tf.reshape(t, [-1, 1])] of a matrix, and [tf.reshape(c, [m, n])] back
    (utils.py:201-205, 222-233). *)
Definition vec m n (A : 'M[F]_(m, n)) : 'cV[F]_(m * n) := \col_k A (rm_row k) (rm_col k).
Definition unvec m n (c : 'cV[F]_(m * n)) : 'M[F]_(m, n) := \matrix_(i, j) c (rm_pos i j) 0.

(** utils.py:238-244: the broadcast product of shape [m1, m2, n1, n2], reshaped. *)
Definition kronecker_product m1 n1 m2 n2 (A : 'M[F]_(m1, n1)) (B : 'M[F]_(m2, n2))
  : 'M[F]_(m1 * m2, n1 * n2) :=
  \matrix_(r, c) (A (rm_row r) (rm_row c) * B (rm_col r) (rm_col c)).

(* ------------------------------------------------------------------------ *)
(** * Layer parameters  (utils.py:192-291).  The weights are given as the 2-D array that
      [tf.reshape(w, [-1, last])] produces (the reshape itself is Tensors/Model.v).  With a
      bias the parameters are the pair (weights, bias).  The template arguments of the code
      only serve to give the shapes, which are static here. *)
Definition params (m n : nat) (has_bias : bool) : Type :=
  if has_bias then ('M[F]_(m, n) * 'rV[F]_n)%type else 'M[F]_(m, n).
(** Number of rows of the 2-D form. *)
Definition rows (m : nat) (has_bias : bool) : nat := if has_bias then (m + 1)%N else m.

(** utils.py:247-268 *)
Definition layer_params_to_mat2d m n (has_bias : bool)
  : params m n has_bias -> 'M[F]_(rows m has_bias, n) :=
  match has_bias with
  | true => fun v => col_mx v.1 v.2
  | false => fun w => w
  end.
(** utils.py:271-291 *)
Definition mat2d_to_layer_params m n (has_bias : bool)
  : 'M[F]_(rows m has_bias, n) -> params m n has_bias :=
  match has_bias with
  | true => fun x : 'M[F]_(m + 1, n) => (usubmx x, dsubmx x)
  | false => fun x => x
  end.

Lemma rows_plus_bias m n : (m * n + 1 * n = (m + 1) * n)%N.
Proof. by rewrite mulnDl. Qed.
(** utils.py:192-205 for one or two parameters *)
Definition tensors_to_column m n (has_bias : bool)
  : params m n has_bias -> 'cV[F]_(rows m has_bias * n) :=
  match has_bias with
  | true => fun v => castmx (rows_plus_bias m n, erefl 1%N) (col_mx (vec v.1) (vec v.2))
  | false => fun w => vec w
  end.
(** utils.py:208-235 *)
Definition column_to_tensors m n (has_bias : bool)
  : 'cV[F]_(rows m has_bias * n) -> params m n has_bias :=
  match has_bias with
  | true => fun c : 'cV[F]_((m + 1) * n) =>
      let c' := castmx (esym (rows_plus_bias m n), erefl 1%N) c in
      (unvec (usubmx c'), unvec (dsubmx c'))
  | false => fun c => unvec c
  end.

(* ------------------------------------------------------------------------ *)
(** * Linear operators  (linear_operator.py) *)
Inductive linop (n : nat) :=
| FullMatrix of 'M[F]_n       (* linear_operator.py:62-76 *)
| DiagOp of 'rV[F]_n.         (* linear_operator.py:79-93 *)

Definition lo_dense n (o : linop n) : 'M[F]_n :=
  match o with FullMatrix M => M | DiagOp d => diag_mx d end.
Definition lo_trace n (o : linop n) : F :=
  match o with FullMatrix M => \tr M | DiagOp d => \sum_i d 0 i end.
(** [matmul(x, adjoint)]; entries are real, so [conj] does nothing. *)
Definition lo_matmul n p (o : linop n) (adjoint : bool) (x : 'M[F]_(n, p)) : 'M[F]_(n, p) :=
  match o with
  | FullMatrix M => (if adjoint then M^T else M) *m x
  | DiagOp d => \matrix_(i, j) (d 0 i * x i j)
  end.
(** [matmul_right(x, adjoint)]; [diag_mat * x] broadcasts along rows. *)
Definition lo_matmul_right n p (o : linop n) (adjoint : bool) (x : 'M[F]_(p, n)) : 'M[F]_(p, n) :=
  match o with
  | FullMatrix M => x *m (if adjoint then M^T else M)
  | DiagOp d => \matrix_(i, j) (d 0 j * x i j)
  end.

(* ------------------------------------------------------------------------ *)
(** * Matrix functions of TensorFlow *)

(** tf.linalg.cholesky: the standard algorithm; defined (positive pivots) for positive
    definite matrices. *)
Fixpoint tf_cholesky n : 'M[F]_n -> 'M[F]_n :=
  match n return 'M[F]_n -> 'M[F]_n with
  | 0 => fun M => M
  | p.+1 => fun M : 'M[F]_(1 + p) =>
      let l := Num.sqrt (M 0 0) in
      let v := l^-1 *: dlsubmx M in
      block_mx l%:M 0 v (tf_cholesky (drsubmx M - v *m v^T))
  end.
(** tf.matrix_triangular_solve and tf.linalg.cholesky_solve (with an invertible factor) *)
Definition triangular_solve n p (L : 'M[F]_n) (B : 'M[F]_(n, p)) := invmx L *m B.
Definition cholesky_solve n p (L : 'M[F]_n) (B : 'M[F]_(n, p)) := invmx L^T *m (invmx L *m B).

(** tf.self_adjoint_eig, tf.pow *)
Variable eigh : forall n, 'M[F]_n -> 'rV[F]_n * 'M[F]_n.
Variable pow : F -> F -> F.

(** [matmul(V * w, V, transpose_b=True)]: scale the columns, multiply by the transpose. *)
Definition eig_recompose n (V : 'M[F]_n) (w : 'rV[F]_n) : 'M[F]_n :=
  (\matrix_(i, j) (V i j * w 0 j)) *m V^T.

Inductive posdef_inv_method := MatrixInverse | CholeskyMethod | EigMethod.
(** utils.py:294-322 *)
Definition posdef_inv (meth : posdef_inv_method) n (tensor : 'M[F]_n) (damping : F) : 'M[F]_n :=
  let damped := tensor + damping *: 1%:M in
  match meth with
  | MatrixInverse => invmx damped
  | CholeskyMethod => cholesky_solve (tf_cholesky damped) 1%:M
  | EigMethod => let (e, V) := eigh damped in eig_recompose V (\row_j (e 0 j)^-1)
  end.
(** utils.py:351-355 *)
Definition cholesky n (tensor : 'M[F]_n) (damping : F) : 'M[F]_n :=
  tf_cholesky (tensor + damping *: 1%:M).

(* ------------------------------------------------------------------------ *)
(** * DenseSquareMatrixFactor  (fisher_factors.py:657-941) *)

(** Python dicts and sets with at most one entry per key, in insertion order. *)
Fixpoint dict_get {K : eqType} {X : Type} (d : seq (K * X)) (k : K) : option X :=
  match d with
  | [::] => None
  | (k', x) :: d' => if k' == k then Some x else dict_get d' k
  end.
Definition dict_assign {K : eqType} {X : Type} (d : seq (K * X)) (k : K) (x : X) : seq (K * X) :=
  [seq if p.1 == k then (p.1, x) else p | p <- d].
Definition set_add {K : eqType} (s : seq K) (k : K) : seq K :=
  if k \in s then s else rcons s k.

(** The factor: the covariance variable's current value, the damping functions, the
    registrations and the variables.  A damping function is identified by its id
    (fisher_factors.py:334-337); its value is looked up when an op runs. *)
Record dense (n : nat) := Dense {
  d_cov : 'M[F]_n;
  d_damping_funcs : seq nat;
  d_matpower_regs : seq (F * nat);
  d_cholesky_regs : seq nat;
  d_cholinv_regs : seq nat;
  d_matpower : seq ((F * nat) * 'M[F]_n);
  d_cholesky : seq (nat * 'M[F]_n);
  d_cholinv : seq (nat * 'M[F]_n);
  d_eigendecomp : bool }.
(** fisher_factors.py:676-690 (with the covariance variable at its initial value 0) *)
Definition dense_init n : dense n := Dense 0 [::] [::] [::] [::] [::] [::] [::] false.

Section Dense.
Variable n : nat.
Implicit Type s : dense n.

(** 699-703 *)
Definition register_damping s (id : nat) : dense n :=
  Dense (d_cov s) (set_add (d_damping_funcs s) id) (d_matpower_regs s) (d_cholesky_regs s)
    (d_cholinv_regs s) (d_matpower s) (d_cholesky s) (d_cholinv s) (d_eigendecomp s).
(** 709-727 *)
Definition register_matpower s (exp : F) (id : nat) : dense n :=
  if exp == 1 then s else
  let s := register_damping s id in
  Dense (d_cov s) (d_damping_funcs s) (set_add (d_matpower_regs s) (exp, id)) (d_cholesky_regs s)
    (d_cholinv_regs s) (d_matpower s) (d_cholesky s) (d_cholinv s) (d_eigendecomp s).
(** 729-743 *)
Definition register_cholesky s (id : nat) : dense n :=
  let s := register_damping s id in
  Dense (d_cov s) (d_damping_funcs s) (d_matpower_regs s) (set_add (d_cholesky_regs s) id)
    (d_cholinv_regs s) (d_matpower s) (d_cholesky s) (d_cholinv s) (d_eigendecomp s).
(** 745-759 *)
Definition register_cholesky_inverse s (id : nat) : dense n :=
  let s := register_damping s id in
  Dense (d_cov s) (d_damping_funcs s) (d_matpower_regs s) (d_cholesky_regs s)
    (set_add (d_cholinv_regs s) id) (d_matpower s) (d_cholesky s) (d_cholinv s) (d_eigendecomp s).

(** 768-816: a variable per registration, initialised to [inverse_init] (192-195); an
    already instantiated registration fails an assertion. *)
Definition instantiate_inv_variables s (inverse_init : 'M[F]_n) : res (dense n) :=
  if has (fun k => isSome (dict_get (d_matpower s) k)) (d_matpower_regs s)
     || has (fun k => isSome (dict_get (d_cholesky s) k)) (d_cholesky_regs s)
     || has (fun k => isSome (dict_get (d_cholinv s) k)) (d_cholinv_regs s)
  then Raise AssertionError
  else Ok (Dense (d_cov s) (d_damping_funcs s) (d_matpower_regs s) (d_cholesky_regs s)
    (d_cholinv_regs s)
    (d_matpower s ++ [seq (k, inverse_init) | k <- d_matpower_regs s])
    (d_cholesky s ++ [seq (k, inverse_init) | k <- d_cholesky_regs s])
    (d_cholinv s ++ [seq (k, inverse_init) | k <- d_cholinv_regs s]) (d_eigendecomp s)).

(** One assignment of an inverse update op. *)
Inductive assignment :=
| AssignMatpowerEig of F & nat     (* 842-850 *)
| AssignInverse of nat             (* 854-860 *)
| AssignCholesky of nat            (* 871-873, 882-886 *)
| AssignCholinv of nat.            (* 875-878 *)

(** 818-889: the list of ops; each op is a group of assignments.  [threshold] is
    EIGENVALUE_DECOMPOSITION_THRESHOLD. *)
Definition use_eig (threshold : nat) s : bool :=
  let num_inverses := count (fun p => p.1.1 == -1) (d_matpower s) in
  let num_other := (size (d_matpower s) - num_inverses)%N in
  [|| d_eigendecomp s, (1 <= num_other)%N | (threshold <= num_inverses)%N].
Definition make_inverse_update_ops (threshold : nat) s : res (seq (seq assignment) * dense n) :=
  let s' := Dense (d_cov s) (d_damping_funcs s) (d_matpower_regs s) (d_cholesky_regs s)
    (d_cholinv_regs s) (d_matpower s) (d_cholesky s) (d_cholinv s) false in
  let mp :=
    if use_eig threshold s
    then Ok [:: [seq AssignMatpowerEig p.1.1 p.1.2 | p <- d_matpower s]]
    else if all (fun p => p.1.1 == -1) (d_matpower s)
         then Ok [seq [:: AssignInverse p.1.2] | p <- d_matpower s]
         else Raise AssertionError in
  let ci := [seq (if isSome (dict_get (d_cholesky s) p.1) then [:: AssignCholesky p.1] else [::])
                 ++ [:: AssignCholinv p.1] | p <- d_cholinv s] in
  let ch := [seq [:: AssignCholesky p.1] |
               p <- d_cholesky s & ~~ isSome (dict_get (d_cholinv s) p.1)] in
  match mp with
  | Ok mp => Ok (mp ++ ci ++ ch, s')
  | Raise e => Raise e
  end.

(** The life of a factor before training: blocks register what they need
    (fisher_blocks.py:286-294 and 818-829), then the variables and the inverse update ops are made
    (estimator.py:463-512).  [threshold] and [inverse_init] as above. *)
Inductive registration :=
| RegMatpower of F & nat
| RegCholesky of nat
| RegCholeskyInverse of nat.
Definition register s (r : registration) : dense n :=
  match r with
  | RegMatpower exp id => register_matpower s exp id
  | RegCholesky id => register_cholesky s id
  | RegCholeskyInverse id => register_cholesky_inverse s id
  end.
Definition finalize (threshold : nat) (inverse_init : 'M[F]_n) (regs : seq registration)
  : res (seq (seq assignment) * dense n) :=
  match instantiate_inv_variables (foldl register (dense_init n) regs) inverse_init with
  | Ok s => make_inverse_update_ops threshold s
  | Raise e => Raise e
  end.

(** 928-941: eigenvalues clipped from below.  [clip] is EIGENVALUE_CLIPPING_THRESHOLD. *)
Definition get_eigendecomp (clip : F) s : 'rV[F]_n * 'M[F]_n :=
  let (e, V) := eigh (d_cov s) in (\row_j Num.max (e 0 j) clip, V).

(** The effect of running an assignment, with the current values of the damping
    functions. *)
Definition run_assignment (clip : F) (meth : posdef_inv_method) (damp : nat -> F) s
    (a : assignment) : dense n :=
  let upd mp ch ci := Dense (d_cov s) (d_damping_funcs s) (d_matpower_regs s)
    (d_cholesky_regs s) (d_cholinv_regs s) mp ch ci (d_eigendecomp s) in
  match a with
  | AssignMatpowerEig exp id =>
      let (e, V) := get_eigendecomp clip s in
      let M := eig_recompose V (\row_j pow (e 0 j + damp id) exp) in
      upd (dict_assign (d_matpower s) (exp, id) M) (d_cholesky s) (d_cholinv s)
  | AssignInverse id =>
      upd (dict_assign (d_matpower s) (-1, id) (posdef_inv meth (d_cov s) (damp id)))
          (d_cholesky s) (d_cholinv s)
  | AssignCholesky id =>
      upd (d_matpower s) (dict_assign (d_cholesky s) id (cholesky (d_cov s) (damp id)))
          (d_cholinv s)
  | AssignCholinv id =>
      upd (d_matpower s) (d_cholesky s)
          (dict_assign (d_cholinv s) id
             (triangular_solve (cholesky (d_cov s) (damp id)) 1%:M))
  end.
Definition run_op (clip : F) (meth : posdef_inv_method) (damp : nat -> F) s
    (op : seq assignment) : dense n :=
  foldl (run_assignment clip meth damp) s op.

(** What happens to a factor while training: its covariance changes, an inverse update op
    (an index into the list above) runs with the current damping values. *)
Inductive event :=
| NewCov of 'M[F]_n
| RunOp of nat & (nat -> F).
Definition set_cov s (c : 'M[F]_n) : dense n :=
  Dense c (d_damping_funcs s) (d_matpower_regs s) (d_cholesky_regs s) (d_cholinv_regs s)
    (d_matpower s) (d_cholesky s) (d_cholinv s) (d_eigendecomp s).
Definition step (clip : F) meth (ops : seq (seq assignment)) s (e : event) : dense n :=
  match e with
  | NewCov c => set_cov s c
  | RunOp k damp => run_op clip meth damp s (nth [::] ops k)
  end.
Definition run clip meth ops s (l : seq event) : dense n := foldl (step clip meth ops) s l.

(** 895-913; [damp] gives the current values of the damping functions. *)
Definition get_matpower s (damp : nat -> F) (exp : F) (id : nat) : res (linop n) :=
  if exp != 1 then
    match dict_get (d_matpower s) (exp, id) with
    | Some M => Ok (FullMatrix M)
    | None => Raise KeyError
    end
  else Ok (FullMatrix (d_cov s + damp id *: 1%:M)).
(** 915-925, 927-936 *)
Definition get_cholesky s (id : nat) : res (linop n) :=
  match dict_get (d_cholesky s) id with
  | Some M => Ok (FullMatrix M) | None => Raise KeyError end.
Definition get_cholesky_inverse s (id : nat) : res (linop n) :=
  match dict_get (d_cholinv s) id with
  | Some M => Ok (FullMatrix M) | None => Raise KeyError end.
End Dense.

(* ------------------------------------------------------------------------ *)
(** * DiagonalFactor  (fisher_factors.py:999-1048); [diag] is [_matrix_diagonal] *)
Definition diag_get_matpower n (diag : 'rV[F]_n) (exp damping : F) : linop n :=
  DiagOp (\row_j pow (diag 0 j + damping) exp).
Definition diag_get_cholesky n (diag : 'rV[F]_n) (damping : F) := diag_get_matpower diag 2^-1 damping.
Definition diag_get_cholesky_inverse n (diag : 'rV[F]_n) (damping : F) :=
  diag_get_matpower diag (- 2^-1) damping.

(* ------------------------------------------------------------------------ *)
(** * Damping of Kronecker-factored blocks  (fisher_blocks.py:75-123, 782-816) *)

(** fisher_blocks.py:75-79; [power] is NORMALIZE_DAMPING_POWER *)
Definition normalize_damping (power damping num_replications : F) : F :=
  if power != 0 then damping / pow num_replications power else damping.

(** 82-112.  The failing assertion is a tf.errors.InvalidArgumentError when the op runs;
    it is represented by ValueError. *)
Definition compute_pi_tracenorm m n (left_cov : linop m) (right_cov : linop n) : res F :=
  let left_norm := lo_trace left_cov * n%:R in
  let right_norm := lo_trace right_cov * m%:R in
  if left_norm * right_norm == 0 then Ok 1
  else if 0 < right_norm then Ok (Num.sqrt (left_norm / right_norm))
  else Raise ValueError.

Inductive pi_type := PiTracenorm | PiOff.
(** 115-123 *)
Definition compute_pi_adjusted_damping (pt : pi_type) m n (left_cov : linop m)
    (right_cov : linop n) (damping : F) : res (F * F) :=
  match pt with
  | PiTracenorm =>
      match compute_pi_tracenorm left_cov right_cov with
      | Ok pi => Ok (damping * pi, damping / pi)
      | Raise e => Raise e
      end
  | PiOff => Ok (damping, damping)
  end.

(** 782-816: the dampings of the input and of the output factor.
    [damping**0.5] is the square root. *)
Definition setup_damping (pt : pi_type) (power : F) m n (input_cov : linop m)
    (output_cov : linop n) (damping : F) (normalization : option F) : res (F * F) :=
  let d := match normalization with
           | Some r => normalize_damping power damping r
           | None => damping
           end in
  compute_pi_adjusted_damping pt input_cov output_cov (Num.sqrt d).

(* ------------------------------------------------------------------------ *)
(** * KroneckerProductFB  (fisher_blocks.py:775-915) *)

(** 862-873 *)
Definition multiply_factored_matrix m n has_bias (left : linop (rows m has_bias))
    (right : linop n) (vector : params m n has_bias) (extra_scale : F)
    (transpose_left transpose_right : bool) : params m n has_bias :=
  let reshaped := layer_params_to_mat2d vector in
  let out := lo_matmul_right right transpose_right reshaped in
  let out := lo_matmul left transpose_left out in
  let out := if extra_scale != 1 then extra_scale *: out else out in
  mat2d_to_layer_params out.
(** 875-882; [left] and [right] are [get_matpower] of the two factors *)
Definition kron_multiply_matpower m n has_bias (left : F -> res (linop (rows m has_bias)))
    (right : F -> res (linop n)) (renorm : F) (vector : params m n has_bias) (exp : F)
  : res (params m n has_bias) :=
  match left exp, right exp with
  | Ok l, Ok r => Ok (multiply_factored_matrix l r vector (pow renorm exp) false false)
  | Raise e, _ => Raise e
  | _, Raise e => Raise e
  end.
(** 884-892; [left] and [right] are [get_cholesky] of the two factors *)
Definition kron_multiply_cholesky m n has_bias (left : res (linop (rows m has_bias)))
    (right : res (linop n)) (renorm : F) (vector : params m n has_bias) (transpose : bool)
  : res (params m n has_bias) :=
  match left, right with
  | Ok l, Ok r =>
      Ok (multiply_factored_matrix l r vector (pow renorm 2^-1) transpose (~~ transpose))
  | Raise e, _ => Raise e
  | _, Raise e => Raise e
  end.
(** 894-904 *)
Definition kron_multiply_cholesky_inverse m n has_bias (left : res (linop (rows m has_bias)))
    (right : res (linop n)) (renorm : F) (vector : params m n has_bias) (transpose : bool)
  : res (params m n has_bias) :=
  match left, right with
  | Ok l, Ok r =>
      Ok (multiply_factored_matrix l r vector (pow renorm (- 2^-1)) transpose (~~ transpose))
  | Raise e, _ => Raise e
  | _, Raise e => Raise e
  end.
(** 904-915 *)
Definition kron_full_fisher_block k n (input_cov : linop k) (output_cov : linop n) (renorm : F)
  : 'M[F]_(k * n) := renorm *: kronecker_product (lo_dense input_cov) (lo_dense output_cov).

(** * FullFB and DiagonalFB  (fisher_blocks.py:283-314, 366-402) *)
Definition full_multiply_matrix m n has_bias (matrix : linop (rows m has_bias * n))
    (vector : params m n has_bias) (transpose : bool) : params m n has_bias :=
  column_to_tensors (lo_matmul matrix transpose (tensors_to_column vector)).
(** 294-311: the operator is what the factor serves *)
Definition full_multiply m n has_bias (matrix : res (linop (rows m has_bias * n)))
    (vector : params m n has_bias) (transpose : bool) : res (params m n has_bias) :=
  match matrix with
  | Ok M => Ok (full_multiply_matrix M vector transpose)
  | Raise e => Raise e
  end.
(** 384-399: DiagonalFB ignores [transpose]. *)
Definition diagonal_multiply m n has_bias (matrix : linop (rows m has_bias * n))
    (vector : params m n has_bias) (transpose : bool) : params m n has_bias :=
  full_multiply_matrix matrix vector false.

(* ------------------------------------------------------------------------ *)
(** * Statistics of a mini-batch.  A tensor of shape [b, n] is the list of its b rows. *)

(** fisher_factors.py:219-244, without [tensor_right] and with the default normalizer *)
Definition compute_cov n (rows : seq 'rV[F]_n) : 'M[F]_n :=
  let cov := (size rows)%:R^-1 *: \sum_(x <- rows) x^T *m x in
  2^-1 *: (cov + cov^T).
(** 247-269 for one row *)
Definition append_homog n (x : 'rV[F]_n) : 'rV[F]_(n + 1) := row_mx x 1%:M.

(** FullyConnectedKroneckerFactor._compute_new_cov, 1726-1731 *)
Definition fc_new_cov n (rows : seq 'rV[F]_n) : 'M[F]_n := compute_cov rows.
Definition fc_new_cov_bias n (rows : seq 'rV[F]_n) : 'M[F]_(n + 1) :=
  compute_cov (map (@append_homog n) rows).

(** DiagonalKroneckerFactor._compute_new_cov_from_tensor, 1187-1224, dense inputs *)
Definition square_row n (x : 'rV[F]_n) : 'rV[F]_n := \row_j (x 0 j) ^+ 2.
Definition diagkron_new_cov n (rows : seq 'rV[F]_n) : 'rV[F]_n :=
  (size rows)%:R^-1 *: \sum_(x <- rows) square_row x.
Definition diagkron_new_cov_bias n (rows : seq 'rV[F]_n) : 'rV[F]_(n + 1) :=
  append_homog (diagkron_new_cov rows).
(** ... sparse inputs: one index per example; an index outside the depth gives a zero row
    (tf.one_hot) *)
Definition one_hot (depth : nat) (i : nat) : 'rV[F]_depth := \row_j ((j == i :> nat)%:R).
Definition diagkron_new_cov_sparse (depth : nat) (ids : seq nat) : 'rV[F]_depth :=
  (size ids)%:R^-1 *: \sum_(i <- ids) one_hot depth i.

(** FullyConnectedDiagonalFactor: 1335-1346 and 1348-1364; each example is a pair of an
    input row (already extended when there is a bias) and an output gradient row. *)
Definition fcdiag_new_cov m n (examples : seq ('rV[F]_m * 'rV[F]_n)) : 'M[F]_(m, n) :=
  (size examples)%:R^-1 *: \sum_(e <- examples) (square_row e.1)^T *m square_row e.2.
Definition fcdiag_new_cov_bias m n (examples : seq ('rV[F]_m * 'rV[F]_n)) : 'M[F]_(m + 1, n) :=
  fcdiag_new_cov [seq (append_homog e.1, e.2) | e <- examples].
(** [tf.reshape(self.cov, [-1])], 1019-1020 *)
Definition matrix_diagonal m n (cov : 'M[F]_(m, n)) : 'rV[F]_(m * n) := (vec cov)^T.

(** ConvDiagonalFactor, 1647-1668; an example is the list, over locations, of the patch
    and the output gradient there. *)
Definition convdiag_case_gradient m n (locs : seq ('rV[F]_m * 'rV[F]_n)) : 'M[F]_(m, n) :=
  \sum_(l <- locs) l.1^T *m l.2.
Definition convdiag_new_cov m n (examples : seq (seq ('rV[F]_m * 'rV[F]_n))) : 'M[F]_(m, n) :=
  (size examples)%:R^-1 *:
    \sum_(e <- examples) \matrix_(i, j) (convdiag_case_gradient e i j) ^+ 2.
Definition convdiag_new_cov_bias m n (examples : seq (seq ('rV[F]_m * 'rV[F]_n)))
  : 'M[F]_(m + 1, n) :=
  convdiag_new_cov [seq [seq (append_homog l.1, l.2) | l <- e] | e <- examples].

(** * The patch mask.  A tensor of patches has shape [batch, height, width, depth] with
      depth = filter_height * filter_width * in_channels; [p_val b i j k] are its entries. *)
Record patches := Patches {
  p_batch : nat; p_height : nat; p_width : nat; p_depth : nat;
  p_val : nat -> nat -> nat -> nat -> F }.
(** TensorFlow's broadcasting of one dimension, and which index of a possibly broadcast
    dimension is read. *)
Definition broadcast_dim (a b : nat) : res nat :=
  if (a == b) || (b == 1%N) then Ok a else if a == 1%N then Ok b else Raise ValueError.
Definition broadcast_index (dim i : nat) : nat := if dim == 1%N then 0%N else i.
(** ConvDiagonalFactor, 1631-1634 ([patches *= self._patch_mask], a tensor of shape
    [filter_height, filter_width, in_channels]) and 1659-1663, where the einsum requires the
    spatial dimensions to be those of the output gradients, the original ones. *)
Definition convdiag_mask_patches (kh kw cin : nat) (mask : nat -> nat -> nat -> F) (p : patches)
  : res patches :=
  match broadcast_dim (p_height p) kh, broadcast_dim (p_width p) kw, broadcast_dim (p_depth p) cin with
  | Ok h, Ok w, Ok d =>
      if (h == p_height p) && (w == p_width p) then
        Ok (Patches (p_batch p) h w d (fun b i j k =>
          p_val p b i j (broadcast_index (p_depth p) k) *
          mask (broadcast_index kh i) (broadcast_index kw j) (broadcast_index cin k)))
      else Raise ValueError
  | _, _, _ => Raise ValueError
  end.
(** ConvInputKroneckerFactor, 1909-1912: [patches *= tf.reshape(self._patch_mask, [-1])] *)
Definition convin_mask_patches (kh kw cin : nat) (mask : nat -> nat -> nat -> F) (p : patches)
  : res patches :=
  match broadcast_dim (p_depth p) (kh * kw * cin) with
  | Ok d => Ok (Patches (p_batch p) (p_height p) (p_width p) d (fun b i j k =>
      p_val p b i j (broadcast_index (p_depth p) k) *
      mask (k %/ (kw * cin))%N ((k %/ cin) %% kw)%N (k %% cin)%N))
  | Raise e => Raise e
  end.

(** ConvInputKroneckerFactor, 1920-1934 and ConvOutputKroneckerFactor, 2460-2473: the rows
    of the reshaped tensors, all examples and locations. *)
Definition convin_new_cov m (examples : seq (seq 'rV[F]_m)) : 'M[F]_m := compute_cov (flatten examples).

(** NaiveFullFactor, 984-991 and NaiveDiagonalFactor, 1097-1101, for one source *)
Definition naivefull_new_cov n (grad : 'rV[F]_n) (batch_size : F) : 'M[F]_n :=
  batch_size^-1 *: (grad^T *m grad).
Definition naivediag_new_cov n (grad : 'rV[F]_n) (batch_size : F) : 'rV[F]_n :=
  batch_size^-1 *: square_row grad.

(** fisher_factors.py:559-583: the sum over sources and towers divided by the number of
    towers, averaged over replicas (utils.all_average).  [contrib r s t] is
    [_compute_new_cov(s, t)] on replica r. *)
Definition compute_total_new_cov m n (num_replicas num_sources num_towers : nat)
    (contrib : nat -> nat -> nat -> 'M[F]_(m, n)) : 'M[F]_(m, n) :=
  num_replicas%:R^-1 *:
    \sum_(r < num_replicas)
      (num_towers%:R^-1 *: \sum_(s < num_sources) \sum_(t < num_towers) contrib r s t).

(** 483-526: the check on the (partial) batch sizes, [sizes s t] being
    [_partial_batch_size(s, t)].  Python's [zip] pairs source i with tower i. *)
Definition check_partial_batch_sizes (num_sources num_towers : nat) (sizes : nat -> nat -> nat)
  : res unit :=
  if (1 < num_sources)%N || (1 < num_towers)%N then
    if all (fun st => sizes 0%N 0%N == sizes st.1 st.2)
           (Py.zip (iota 0 num_sources) (iota 0 num_towers))
    then Ok tt else Raise ValueError
  else Ok tt.

(** estimator.py:433-461, static batch sizes: a factor is given by its numbers of sources and
    towers and its partial batch sizes; [batch_size] is what the user passed, if anything. *)
Record batch_info := BatchInfo {
  b_sources : nat; b_towers : nat; b_sizes : nat -> nat -> nat }.
(** fisher_factors.py:479-482 with the default [source=0] *)
Definition factor_batch_size (f : batch_info) : nat := \sum_(t < b_towers f) b_sizes f 0 t.
Definition check_batch_sizes (batch_size : option nat) (first f : batch_info) : res unit :=
  let reference := match batch_size with Some b => b | None => factor_batch_size first end in
  if factor_batch_size f != reference then Raise ValueError
  else check_partial_batch_sizes (b_sources f) (b_towers f) (b_sizes f).
(** The check is part of every factor's covariance update (estimator.py:613-629). *)
Definition check_all_batch_sizes (batch_size : option nat) (factors : seq batch_info) : res unit :=
  match factors with
  | [::] => Ok tt
  | first :: _ =>
      foldl (fun acc f => match acc with Ok _ => check_batch_sizes batch_size first f | e => e end)
        (Ok tt) factors
  end.

(** The covariance variable: utils.MovingAverageVariable (utils.py:1248-1326); its value
    when [normalize] (ZERO_DEBIAS) is the quotient by the accumulated weight. *)
Record mav m n := Mav { m_var : 'M[F]_(m, n); m_weight : F }.
Definition mav_init m n : mav m n := Mav 0 0.
Definition mav_add m n (a : mav m n) (x : 'M[F]_(m, n)) (decay weight : F) : mav m n :=
  Mav (decay *: m_var a + weight *: x) (decay * m_weight a + weight).
Definition mav_value m n (normalize : bool) (a : mav m n) : 'M[F]_(m, n) :=
  if normalize then (m_weight a)^-1 *: m_var a else m_var a.

(** fisher_factors.py:586-604 (make_covariance_update_op), run once per element of [updates]
    starting from fresh variables; an update is the data of every replica, source and tower
    and the decay and weight.  [stat] is [_compute_new_cov]. *)
Definition covariance_after X m n (normalize : bool) (stat : X -> 'M[F]_(m, n))
    (num_replicas num_sources num_towers : nat)
    (updates : seq ((nat -> nat -> nat -> X) * (F * F))) : 'M[F]_(m, n) :=
  mav_value normalize
    (foldl (fun a u =>
       mav_add a (compute_total_new_cov num_replicas num_sources num_towers
                    (fun r s t => stat (u.1 r s t))) u.2.1 u.2.2)
     (mav_init m n) updates).

(* ------------------------------------------------------------------------ *)
(** * ConvInputSUAKroneckerFactor  (fisher_factors.py:1979-2405).  Operators of tf.linalg
      are given as the matrices they represent. *)
Section SUA.
Variables (c kk : nat).           (* in_channels, kernel height * width *)

(** tf.linalg.LinearOperatorKronecker([A, Identity(kk)]) *)
Definition kron_identity (A : 'M[F]_c) : 'M[F]_(c * kk) := kronecker_product A (1%:M : 'M[F]_kk).
(** [tf.reshape(tf.tile(mu, [1, kk]), (-1, 1))] *)
Definition tile_mean (mu : 'cV[F]_c) : 'cV[F]_(c * kk) := vec (\matrix_(i < c, j < kk) mu i 0).
(** tf.linalg.LinearOperatorBlockDiag([A, [[d]]]) *)
Definition block_diag_bias k (A : 'M[F]_k) (d : F) : 'M[F]_(k + 1) := block_mx A 0 0 d%:M.
(** tf.linalg.LinearOperatorLowRankUpdate(A, u, v): A + u v^T (v defaults to u) *)
Definition low_rank_update k (A : 'M[F]_k) (u v : 'cV[F]_k) : 'M[F]_k := A + u *m v^T.
(** append_homog of a vector with the given value *)
Definition append_value k (u : 'cV[F]_k) (a : F) : 'cV[F]_(k + 1) := col_mx u a%:M.

(** 2088-2122: new covariance and mean from the (c + 1)-square second moment matrix *)
Definition sua_new_mu (S : 'M[F]_(c + 1)) : 'cV[F]_c := ursubmx S.
Definition sua_new_cov (assume_zero_mean subtract_mean : bool) (S : 'M[F]_(c + 1)) : 'M[F]_c :=
  if ~~ assume_zero_mean || subtract_mean
  then ulsubmx S - sua_new_mu S *m (sua_new_mu S)^T
  else ulsubmx S.

(** 2088-2138: the covariance variable after the given updates (see [covariance_after]); the
    data of a tower are the rows of the reshaped inputs. *)
Definition sua_covariance_after (normalize assume_zero_mean subtract_mean : bool)
    (num_replicas num_towers : nat)
    (updates : seq ((nat -> nat -> seq 'rV[F]_c) * (F * F))) : 'M[F]_c :=
  mav_value normalize
    (foldl (fun a u =>
       mav_add a (sua_new_cov assume_zero_mean subtract_mean
                   (compute_total_new_cov num_replicas 1 num_towers
                      (fun r _ t => fc_new_cov_bias (u.1 r t)))) u.2.1 u.2.2)
     (mav_init c c) updates).

(** 2341-2382: the (damped) covariance operator; without damping pass 0 *)
Definition sua_cov_operator (zero_mean : bool) (cov : 'M[F]_c) (mu : 'cV[F]_c) (damping : F)
  : 'M[F]_(c * kk) :=
  let A := kron_identity (cov + damping *: 1%:M) in
  if zero_mean then A else low_rank_update A (tile_mean mu) (tile_mean mu).
Definition sua_cov_operator_bias (zero_mean : bool) (cov : 'M[F]_c) (mu : 'cV[F]_c) (damping : F)
  : 'M[F]_(c * kk + 1) :=
  let A := block_diag_bias (kron_identity (cov + damping *: 1%:M)) damping in
  if zero_mean then A
  else low_rank_update A (append_value (tile_mean mu) 1) (append_value (tile_mean mu) 1).

(** The variables written by the inverse update ops (2256-2286): the damping, the inverse,
    [cov_inv_mu] and the scale. *)
Record sua_vars := SuaVars {
  v_damping : F; v_cov_inv : 'M[F]_c; v_cov_inv_mu : 'cV[F]_c; v_scale : F }.
(** 2156-2171 and 2256-2286: all the ops run together *)
Definition sua_update (meth : posdef_inv_method) (has_bias : bool) (cov : 'M[F]_c) (mu : 'cV[F]_c)
    (damping : F) : sua_vars :=
  let cov_inv := posdef_inv meth cov damping in
  let cov_inv_mu := cov_inv *m mu in
  let h := kk%:R * (mu^T *m cov_inv_mu) 0 0 in
  let t := if has_bias then h + damping^-1 else h in
  SuaVars damping cov_inv cov_inv_mu (1 / (1 + t)).

(** 2173-2254: the operator for exponent -1 *)
Definition sua_inverse_operator (zero_mean : bool) (v : sua_vars) : 'M[F]_(c * kk) :=
  let A := kron_identity (v_cov_inv v) in
  let u := tile_mean (v_cov_inv_mu v) in
  if zero_mean then A else low_rank_update A u (- v_scale v *: u).
Definition sua_inverse_operator_bias (zero_mean : bool) (v : sua_vars) : 'M[F]_(c * kk + 1) :=
  let A := block_diag_bias (kron_identity (v_cov_inv v)) (v_damping v)^-1 in
  let u := append_value (tile_mean (v_cov_inv_mu v)) (v_damping v)^-1 in
  if zero_mean then A else low_rank_update A u (- v_scale v *: u).
End SUA.

(* ------------------------------------------------------------------------ *)
(** * Sparse gradients: tf.IndexedSlices of shape [m, n]  (utils.py:911-966,
      linear_operator.py:33-93).  A slice is a row index and a row of values; rows with
      the same index add up. *)
Definition slices (m n : nat) := seq ('I_m * 'rV[F]_n).
Definition densify m n (s : slices m n) : 'M[F]_(m, n) :=
  \sum_(p <- s) (delta_mx p.1 (0 : 'I_1) : 'cV[F]_m) *m p.2.
(** utils.py:943-966 *)
Definition matmul_diag_sparse m n (d : 'rV[F]_m) (s : slices m n) : slices m n :=
  [seq (p.1, d 0 p.1 *: p.2) | p <- s].
(** utils.py:911-940 *)
Definition matmul_sparse_dense m n p (s : slices m n) (B : 'M[F]_(n, p)) : slices m p :=
  [seq (q.1, q.2 *m B) | q <- s].
(** linear_operator.py:33-60 with sparse argument; [adjoint] asserted false on the right *)
Definition lo_matmul_sparse n p (o : linop n) (adjoint : bool) (s : slices n p) : res (slices n p) :=
  match o with
  | FullMatrix _ => Raise NotImplementedErr
  | DiagOp d => Ok (matmul_diag_sparse d s)
  end.
Definition lo_matmul_right_sparse n p (o : linop n) (adjoint : bool) (s : slices p n)
  : res (slices p n) :=
  match o with
  | FullMatrix M => if adjoint then Raise AssertionError else Ok (matmul_sparse_dense s M)
  | DiagOp _ => Raise NotImplementedErr
  end.
(** fisher_blocks.py:862-873 with a sparse vector (no bias) *)
Definition multiply_factored_matrix_sparse m n (left : linop m) (right : linop n)
    (vector : slices m n) (extra_scale : F) (transpose_left transpose_right : bool)
  : res (slices m n) :=
  match lo_matmul_right_sparse right transpose_right vector with
  | Ok out =>
      match lo_matmul_sparse left transpose_left out with
      | Ok out => Ok (if extra_scale != 1 then [seq (p.1, extra_scale *: p.2) | p <- out] else out)
      | Raise e => Raise e
      end
  | Raise e => Raise e
  end.
End Matrices.
