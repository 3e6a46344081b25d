(** Vocabulary for stating the matrix properties: nothing here refers to the model except
    for the type of layer parameters. *)
From mathcomp Require Import all_ssreflect all_algebra.
From Verif.Base Require Import Py.
From Verif.Blocks Require Import Model.
Set Implicit Arguments.
Unset Strict Implicit.
Unset Printing Implicit Defensive.
Import GRing.Theory Num.Theory.
Local Open Scope ring_scope.

Section Spec.
Variable F : rcfType.

(** Symmetric positive semidefinite / positive definite. *)
Definition psd n (M : 'M[F]_n) : Prop :=
  M^T = M /\ forall x : 'cV[F]_n, 0 <= (x^T *m M *m x) 0 0.
Definition pd n (M : 'M[F]_n) : Prop :=
  M^T = M /\ forall x : 'cV[F]_n, x != 0 -> 0 < (x^T *m M *m x) 0 0.

(** [K] is the Kronecker product of [A] and [B] in row-major order. *)
Definition is_kron m1 n1 m2 n2 (A : 'M[F]_(m1, n1)) (B : 'M[F]_(m2, n2))
    (K : 'M[F]_(m1 * m2, n1 * n2)) : Prop :=
  forall (i : 'I_m1) (j : 'I_n1) (k : 'I_m2) (l : 'I_n2) r s,
    nat_of_ord r = (i * m2 + k)%N -> nat_of_ord s = (j * n2 + l)%N ->
    K r s = A i j * B k l.

(** The laws of the real power function used below (1, -1, 1/2, -1/2 are the exponents
    the optimizer uses; any other exponent only needs to be multiplicative). *)
Record power_laws (pow : F -> F -> F) : Prop := PowerLaws {
  pow_one : forall x, 0 < x -> pow x 1 = x;
  pow_minus_one : forall x, 0 < x -> pow x (-1) = x^-1;
  pow_half : forall x, 0 < x -> pow x 2^-1 = Num.sqrt x;
  pow_minus_half : forall x, 0 < x -> pow x (- 2^-1) = (Num.sqrt x)^-1;
  pow_mul : forall x y e, 0 < x -> 0 < y -> pow (x * y) e = pow x e * pow y e;
  pow_pos : forall x e, 0 < x -> 0 < pow x e }.

(** [P] is the [e]-th power of the positive definite matrix [M]: same orthonormal
    eigenvectors, eigenvalues raised to [e]. *)
Definition is_matpower (pow : F -> F -> F) n (M : 'M[F]_n) (e : F) (P : 'M[F]_n) : Prop :=
  exists (V : 'M[F]_n) (d : 'rV[F]_n),
    [/\ V *m V^T = 1%:M, forall i, 0 < d 0 i, M = V *m diag_mx d *m V^T
      & P = V *m diag_mx (\row_i pow (d 0 i) e) *m V^T].

(** [V, d] diagonalise [M]; what tf.self_adjoint_eig promises. *)
Definition diagonalises n (d : 'rV[F]_n) (V M : 'M[F]_n) : Prop :=
  V *m V^T = 1%:M /\ M = V *m diag_mx d *m V^T.
Definition eigh_contract (eigh : forall n, 'M[F]_n -> 'rV[F]_n * 'M[F]_n) : Prop :=
  forall n (M : 'M[F]_n), M^T = M -> diagonalises (eigh n M).1 (eigh n M).2 M.

(** The coordinates of layer parameters, in the order in which the parameters are laid
    out: the entries of the weights row by row, then those of the bias. *)
Definition coordinate m n (has_bias : bool) : params F m n has_bias -> nat -> F -> Prop :=
  match has_bias with
  | true => fun v p x =>
      (exists (i : 'I_m) (j : 'I_n), p = (i * n + j)%N /\ x = v.1 i j) \/
      (exists j : 'I_n, p = (m * n + j)%N /\ x = v.2 0 j)
  | false => fun w p x => exists (i : 'I_m) (j : 'I_n), p = (i * n + j)%N /\ x = w i j
  end.
(** [c] lists the coordinates of [v]. *)
Definition is_column m n has_bias (v : params F m n has_bias) (c : 'cV[F]_(rows m has_bias * n))
  : Prop := forall p : 'I_(rows m has_bias * n), coordinate v p (c p 0).

(** The covariance after a history of a factor that starts with covariance [c]: the last
    one assigned. *)
Fixpoint cov_after n (c : 'M[F]_n) (l : seq (event F n)) : 'M[F]_n :=
  match l with
  | [::] => c
  | NewCov c' :: l => cov_after c' l
  | RunOp _ _ :: l => cov_after c l
  end.
(** Op number [k] runs in the history. *)
Definition runs n (k : nat) (l : seq (event F n)) : Prop :=
  exists d, List.In (RunOp _ k d) l.

(** A dense factor with the given registrations whose covariance is [C] and whose inverse
    update ops all ran, with damping values [damp], since the covariance last changed. *)
Definition refresh n (num_ops : nat) (damp : nat -> F) : seq (event F n) :=
  [seq RunOp n k damp | k <- iota 0 num_ops].
Definition up_to_date (eigh : forall n, 'M[F]_n -> 'rV[F]_n * 'M[F]_n) (pow : F -> F -> F)
    (threshold : nat) (clip : F) (meth : posdef_inv_method) n (regs : seq (registration F))
    (damp : nat -> F) (C : 'M[F]_n) (s : dense F n) : Prop :=
  exists init ops s0 l,
    [/\ finalize threshold init regs = Ok (ops, s0), cov_after 0 l = C
      & s = run eigh pow clip meth ops s0 (l ++ refresh n (size ops) damp)].

(** The output of a fully connected layer (or of a convolution at one location) on the input
    row [x]. *)
Definition fc_output m n has_bias : params F m n has_bias -> 'rV[F]_m -> 'rV[F]_n :=
  match has_bias with
  | true => fun v x => x *m v.1 + v.2
  | false => fun w x => x *m w
  end.
(** [c] is the gradient, with respect to the coordinates of the parameters, of a function
    whose gradient with respect to the output on input [l.1] is [l.2], for each [l] in
    [uses]: the outputs are linear in the parameters, so the gradient is the vector whose
    product with any parameters [v] is the sum of the products of the output gradients
    with the outputs for [v]. *)
Definition is_gradient m n has_bias (uses : seq ('rV[F]_m * 'rV[F]_n))
    (c : 'cV[F]_(rows m has_bias * n)) : Prop :=
  forall (v : params F m n has_bias) cv, is_column v cv ->
    (c^T *m cv) 0 0 = \sum_(l <- uses) (l.2 *m (fc_output v l.1)^T) 0 0.

(** The damping of a block after normalisation by the number of replications [r], which is
    raised to [power]. *)
Definition normalised (pow : F -> F -> F) (power damping : F) (replications : option F) : F :=
  match replications with
  | None => damping
  | Some r => if power == 0 then damping else damping / pow r power
  end.

(** All the examples of a batch that is split over [R] replicas and [T] towers. *)
Definition all_data X (R T : nat) (data : nat -> nat -> seq X) : seq X :=
  flatten [seq flatten [seq data r t | t <- iota 0 T] | r <- iota 0 R].

(** [q] is [p] with every entry multiplied by the mask's entry for its filter position. *)
Definition is_masked (kh kw cin : nat) (mask : nat -> nat -> nat -> F) (p q : patches F) : Prop :=
  [/\ p_batch q = p_batch p, p_height q = p_height p, p_width q = p_width p
    & p_depth q = p_depth p] /\
  forall b i j y x c, (b < p_batch p)%N -> (i < p_height p)%N -> (j < p_width p)%N ->
    (y < kh)%N -> (x < kw)%N -> (c < cin)%N ->
    p_val q b i j ((y * kw + x) * cin + c) = p_val p b i j ((y * kw + x) * cin + c) * mask y x c.
End Spec.
