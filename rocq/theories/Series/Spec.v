(** Vocabulary for the properties of layers with several uses. *)
From mathcomp Require Import all_ssreflect all_algebra.
From Coq Require Import Permutation.
From Verif.Blocks Require Import Model Spec.
From Verif.Series Require Import Model.
Set Implicit Arguments.
Unset Strict Implicit.
Unset Printing Implicit Defensive.
Import GRing.Theory Num.Theory.
Local Open Scope ring_scope.

Section Matrices.
Variable F : rcfType.

(** What tf.svd promises for a square matrix. *)
Definition svd_contract (svd : forall n, 'M[F]_n -> 'rV[F]_n * 'M[F]_n * 'M[F]_n) : Prop :=
  forall n (M : 'M[F]_n), let: (s, U, V) := svd n M in
    [/\ U *m U^T = 1%:M, V *m V^T = 1%:M, forall i, 0 <= s 0 i & M = U *m diag_mx s *m V^T].

(** A stationary linear (first order autoregressive) process: [V0] is the covariance of the
    vector at one time, [V1] that of the vector at one time with the one before.  The
    covariance with the vector [d] steps before. *)
Fixpoint lag_cov n (V0 V1 : 'M[F]_n) (d : nat) : 'M[F]_n :=
  match d with
  | 0 => V0
  | d'.+1 => V1 *m invmx V0 *m lag_cov V0 V1 d'
  end.
(** The covariance of the sum of the vectors at [T] successive times. *)
Definition sequence_cov n (T : nat) (V0 V1 : 'M[F]_n) : 'M[F]_n :=
  \sum_(t < T) \sum_(s < T)
    if (s <= t)%N then lag_cov V0 V1 (t - s) else (lag_cov V0 V1 (s - t))^T.

(** [W] is the sum of the covariances at all lags 0, 1, 2, ...: taking out the first term
    leaves the same sum, moved by one step. *)
Definition is_lag_sum n (V0 V1 W : 'M[F]_n) : Prop := W = V0 + V1 *m invmx V0 *m W.

(** What a pair of covariances of a process satisfies: the covariance matrix of the vectors
    at two successive times is positive semidefinite. *)
Definition shift_bounded n (C0 C1 : 'M[F]_n) : Prop :=
  forall x y : 'cV[F]_n,
    0 <= (x^T *m C0 *m x) 0 0 + (y^T *m C0 *m y) 0 0 + 2%:R * (x^T *m C1 *m y) 0 0.

(** [P] is the absolute value of the symmetric matrix [C1] relative to [C0]: positive
    semidefinite, with the same square (with [C0] the identity this is the usual one). *)
Definition relative_abs n (C0 C1 P : 'M[F]_n) : Prop :=
  psd P /\ P *m invmx C0 *m P = C1 *m invmx C0 *m C1.

Definition symmetric_part n (M : 'M[F]_n) : 'M[F]_n := 2^-1 *: (M + M^T).
End Matrices.

Section Data.
Variable X : Type.

(** Every tower has [T] uses, and the uses of a tower all have the same positive number of
    examples. *)
Definition regular (T : nat) (towers : seq (seq (seq X))) : Prop :=
  (0 < size towers)%N /\ forall t, List.In t towers ->
    size t = T /\ exists b, (0 < b)%N /\ forall u, List.In u t -> size u = b.
(** The pairs of one tower that belong to the same example at a use and the use before. *)
Definition successive (uses : seq (seq X)) : seq (X * X) :=
  flatten [seq zip (nth [::] uses u.+1) (nth [::] uses u) | u <- iota 0 (size uses).-1].
(** All the rows, and all these pairs. *)
Definition all_rows (towers : seq (seq (seq X))) : seq X := flatten (map flatten towers).
Definition all_pairs (towers : seq (seq (seq X))) : seq (X * X) := flatten (map successive towers).
(** The pairs that a factor forms from the rows of its tensor. *)
Definition formed (T : nat) (rows : seq X) : seq (X * X) :=
  zip (future_rows T rows) (present_rows T rows).
End Data.
