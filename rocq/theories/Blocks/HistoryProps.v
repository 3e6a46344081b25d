(** C13 for the statistics of Fisher factors: covariance estimates are weighted means of the
    statistics of the batches. *)
From mathcomp Require Import all_ssreflect all_algebra.
From Verif.Base Require Import Py.
From Verif.Blocks Require Import Model.
Set Implicit Arguments.
Unset Strict Implicit.
Unset Printing Implicit Defensive.
Import GRing.Theory Num.Theory.
Local Open Scope ring_scope.

(** What is left, after [N] updates, of the weight of update [k]. *)
Definition share (F : rcfType) (decay weight : nat -> F) (N k : nat) : F :=
  weight k * \prod_(k.+1 <= j < N) decay j.

Section Facts.
Variable F : rcfType.
Implicit Types decay weight : nat -> F.
Lemma share_last decay weight N : share decay weight N.+1 N = weight N.
Proof. by rewrite /share big_geq // mulr1. Qed.
Lemma share_next decay weight N k : (k < N)%N -> share decay weight N.+1 k = decay N * share decay weight N k.
Proof. by move=> h; rewrite /share big_nat_recr //= mulrA mulrC. Qed.
Lemma mav_shares m n (x : nat -> 'M[F]_(m, n)) decay weight N :
  let a := foldl (fun a k => mav_add a (x k) (decay k) (weight k)) (mav_init F m n) (iota 0 N) in
  m_var a = \sum_(k < N) share decay weight N k *: x k /\ m_weight a = \sum_(k < N) share decay weight N k.
Proof.
elim: N => [|N [IHv IHw]] a; rewrite /a {a}; first by rewrite /= !big_ord0.
have e : iota 0 N.+1 = iota 0 N ++ [:: N] by rewrite -addn1 iotaD.
rewrite e foldl_cat /= IHv IHw !big_ord_recr /= share_last; split; congr (_ + _).
- by rewrite scaler_sumr; apply: eq_bigr => k _; rewrite share_next // scalerA.
- by rewrite mulr_sumr; apply: eq_bigr => k _; rewrite share_next.
Qed.
Lemma mav_mean m n normalize (x : nat -> 'M[F]_(m, n)) decay weight N :
  mav_value normalize (foldl (fun a k => mav_add a (x k) (decay k) (weight k)) (mav_init F m n) (iota 0 N))
  = (if normalize then (\sum_(k < N) share decay weight N k)^-1 else 1) *: \sum_(k < N) share decay weight N k *: x k.
Proof.
by rewrite /mav_value; have [-> ->] := mav_shares x decay weight N; case: normalize; rewrite ?scale1r.
Qed.
Lemma foldl_updates (A B : Type) (f : A -> B -> A) (u : nat -> B) a l :
  foldl f a [seq u k | k <- l] = foldl (fun a k => f a (u k)) a l.
Proof. by elim: l a => //= k l IH a; apply: IH. Qed.
End Facts.

(** After any number of updates the covariance estimate of a factor (of any kind: [stat] is the
    statistic of one source of one tower) is the sum of the batch statistics - summed over sources,
    averaged over towers and replicas - each with the share of its weight that the later decays
    have left, divided by the sum of these shares if the average is normalised. *)
Theorem C13_factor_covariance (F : rcfType) X m n normalize (stat : X -> 'M[F]_(m, n)) R S T
    N (data : nat -> nat -> nat -> nat -> X) (decay weight : nat -> F) :
  covariance_after normalize stat R S T [seq (data k, (decay k, weight k)) | k <- iota 0 N]
  = (if normalize then (\sum_(k < N) share decay weight N k)^-1 else 1) *:
    \sum_(k < N) share decay weight N k *:
      (R%:R^-1 *: \sum_(r < R) (T%:R^-1 *: \sum_(s < S) \sum_(t < T) stat (data k r s t))).
Proof.
rewrite /covariance_after foldl_updates.
exact: (mav_mean normalize (fun k => compute_total_new_cov R S T (fun r s t => stat (data k r s t))) decay weight N).
Qed.
Print Assumptions C13_factor_covariance.

(** With the defaults of a run without decay (every weight the same and every decay one, as during
    burn-in) it is the plain mean of the batch statistics. *)
Theorem C13_factor_plain_mean (F : rcfType) X m n (stat : X -> 'M[F]_(m, n)) R S T
    N (data : nat -> nat -> nat -> nat -> X) (w : F) : w <> 0 ->
  covariance_after true stat R S T [seq (data k, (1, w)) | k <- iota 0 N]
  = N%:R^-1 *: \sum_(k < N)
      (R%:R^-1 *: \sum_(r < R) (T%:R^-1 *: \sum_(s < S) \sum_(t < T) stat (data k r s t))).
Proof.
move=> hw; rewrite (C13_factor_covariance true stat R S T N data (fun=> 1) (fun=> w)).
have sh k : share (fun=> 1) (fun=> w) N k = w by rewrite /share big1 // mulr1.
rewrite (eq_bigr (fun=> w)) => [|k _]; last exact: sh.
rewrite sumr_const card_ord (eq_bigr (fun k : 'I_N => w *: (R%:R^-1 *: \sum_(r < R) (T%:R^-1 *: \sum_(s < S) \sum_(t < T) stat (data k r s t)))))
  => [|k _]; last by rewrite sh.
have e : (w *+ N)^-1 * w = N%:R^-1 :> F by rewrite -[w *+ N]mulr_natl invfM -mulrA mulVf ?mulr1 //; apply/eqP.
by rewrite -scaler_sumr [LHS]scalerA e.
Qed.
Print Assumptions C13_factor_plain_mean.

(** The covariance of the SUA input factor: the same mean, of the second moments that the batches
    have, minus - unless a zero mean is assumed and nothing is subtracted - the products of the
    batch means. *)
Section Sua.
Variables (F : rcfType) (c : nat).
Definition second_moment (rows : seq 'rV[F]_c) : 'M[F]_c := (size rows)%:R^-1 *: \sum_(x <- rows) x^T *m x.
Definition batch_mean (rows : seq 'rV[F]_c) : 'cV[F]_c := (size rows)%:R^-1 *: \sum_(x <- rows) x^T.
Lemma plain_cov n (rows : seq 'rV[F]_n) : compute_cov rows = (size rows)%:R^-1 *: \sum_(x <- rows) x^T *m x.
Proof.
rewrite /compute_cov /=; set C := _%:R^-1 *: _.
have -> : C^T = C.
  rewrite /C linearZ /= linear_sum /=; congr (_ *: _); apply: eq_bigr => x _.
  by rewrite trmx_mul trmxK.
have two : 2 != 0 :> F by rewrite pnatr_eq0.
by rewrite -mulr2n -scaler_nat scalerA mulVf // scale1r.
Qed.
Lemma ul_entry (S : 'M[F]_(c + 1)) i j : ulsubmx S i j = S (lshift 1 i) (lshift 1 j).
Proof. by rewrite !mxE. Qed.
Lemma ur_entry (S : 'M[F]_(c + 1)) i j : ursubmx S i j = S (lshift 1 i) (rshift c j).
Proof. by rewrite !mxE. Qed.
Lemma bias_ul rows : ulsubmx (@fc_new_cov_bias F c rows) = second_moment rows.
Proof.
rewrite /fc_new_cov_bias plain_cov size_map big_map; apply/matrixP=> i j.
rewrite 3!mxE summxE [RHS]mxE summxE; congr (_ * _); apply: eq_bigr => x _.
rewrite !mxE; apply: eq_bigr => k _; rewrite !mxE.
by rewrite !(unsplitK (inl _)).
Qed.
Lemma bias_ur rows : ursubmx (@fc_new_cov_bias F c rows) = batch_mean rows.
Proof.
rewrite /fc_new_cov_bias plain_cov size_map big_map; apply/matrixP=> i j.
rewrite 3!mxE summxE [RHS]mxE summxE; congr (_ * _); apply: eq_bigr => x _.
rewrite !mxE big_ord1 !mxE (unsplitK (inl _)) (unsplitK (inr _)) mxE !ord1 eqxx mulr1.
by [].
Qed.
End Sua.
Theorem C13_sua_covariance (F : rcfType) c normalize zero_mean subtract R T
    N (data : nat -> nat -> nat -> seq 'rV[F]_c) (decay weight : nat -> F) :
  let second k := R%:R^-1 *: \sum_(r < R) (T%:R^-1 *: \sum_(t < T) second_moment (data k r t)) in
  let mean k := R%:R^-1 *: \sum_(r < R) (T%:R^-1 *: \sum_(t < T) batch_mean (data k r t)) in
  sua_covariance_after normalize zero_mean subtract R T [seq (data k, (decay k, weight k)) | k <- iota 0 N]
  = (if normalize then (\sum_(k < N) share decay weight N k)^-1 else 1) *:
    \sum_(k < N) share decay weight N k *:
      (if zero_mean && ~~ subtract then second k else second k - mean k *m (mean k)^T).
Proof.
move=> second mean; rewrite /sua_covariance_after foldl_updates.
rewrite (mav_mean normalize (fun k => sua_new_cov zero_mean subtract
  (compute_total_new_cov R 1 T (fun r _ t => fc_new_cov_bias (data k r t)))) decay weight N).
congr (_ *: _); apply: eq_bigr => k _; congr (_ *: _).
have e2 : ulsubmx (compute_total_new_cov R 1 T (fun r _ t => fc_new_cov_bias (data k r t))) = second k.
  apply/matrixP=> i j; rewrite /compute_total_new_cov /second.
  rewrite 3!mxE summxE [RHS]mxE summxE; congr (_ * _); apply: eq_bigr => r _.
  rewrite !mxE big_ord1 !summxE; congr (_ * _); apply: eq_bigr => t _.
  by rewrite -(bias_ul (data k r t)) ul_entry.
have e1 : ursubmx (compute_total_new_cov R 1 T (fun r _ t => fc_new_cov_bias (data k r t))) = mean k.
  apply/matrixP=> i j; rewrite /compute_total_new_cov /mean.
  rewrite 3!mxE summxE [RHS]mxE summxE; congr (_ * _); apply: eq_bigr => r _.
  rewrite !mxE big_ord1 !summxE; congr (_ * _); apply: eq_bigr => t _.
  by rewrite -(bias_ur (data k r t)) ur_entry.
by rewrite /sua_new_cov /sua_new_mu e1 e2; case: zero_mean; case: subtract.
Qed.
Print Assumptions C13_sua_covariance.

(** Two updates with decay d and weight 1 - d: the usual exponential average. *)
Example C13_exponential (F : rcfType) (d x y : F) : 1 - d * d <> 0 ->
  covariance_after true (fun z : F => (z%:M : 'M[F]_1)) 1 1 1 [:: ((fun _ _ _ => x), (d, 1 - d)); ((fun _ _ _ => y), (d, 1 - d))]
  = ((1 - d * d)^-1 * ((1 - d) * d * x + (1 - d) * y))%:M.
Proof.
move=> h; have := @C13_factor_covariance F F 1 1 true (fun z : F => z%:M) 1 1 1 2
  (fun k _ _ _ => if k is 0%N then x else y) (fun=> d) (fun=> 1 - d).
rewrite /= => ->; rewrite !big_ord_recr !big_ord0 /= !add0r /share big_nat1 big_geq // !mulr1.
have -> : (1 - d) * d + (1 - d) = 1 - d * d by rewrite mulrBl mul1r addrC addrA subrK.
by rewrite invr1 !scale1r !scale_scalar_mx -raddfD /= scale_scalar_mx.
Qed.
