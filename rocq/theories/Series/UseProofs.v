(** The statistics of layers with several uses, and the blocks that treat uses as independent. *)
From Verif.Base Require Import Py.
From mathcomp Require Import all_ssreflect all_algebra.
From Coq Require List.
From Coq Require Import Permutation.
From Verif.Blocks Require Import Model Spec MatProofs StatProofs.
From Verif.Series Require Import Model Spec DataProofs.
Set Implicit Arguments.
Unset Strict Implicit.
Unset Printing Implicit Defensive.
Import GRing.Theory Num.Theory.
Local Open Scope ring_scope.

Section Sums.
Variables (F : rcfType) (n : nat).
Lemma perm_sum (M : zmodType) X (f : X -> M) (s t : seq X) : Permutation s t ->
  \sum_(x <- s) f x = \sum_(x <- t) f x.
Proof.
elim=> [//|x s' t' _ h|x y s'|s1 s2 s3 _ h1 _ h2]; last by rewrite h1.
- by rewrite !big_cons h.
- by rewrite !big_cons addrCA.
Qed.
Lemma perm_size X (s t : seq X) : Permutation s t -> size s = size t.
Proof. by elim=> [//|x s' t' _ /= ->|x y s'|s1 s2 s3 _ -> _ ->]. Qed.
Lemma perm_cov (s t : seq 'rV[F]_n) : Permutation s t -> compute_cov s = compute_cov t.
Proof. by move=> h; rewrite /compute_cov (perm_size h) (perm_sum _ h). Qed.

Lemma py_zipE X Y (s : seq X) (t : seq Y) : Py.zip s t = zip s t.
Proof. by elim: s t => [|x s IH] [|y t] //=; rewrite IH. Qed.
Lemma dt1_of_pairs T (rows : seq 'rV[F]_n) : (0 < T)%N -> (T <= size rows)%N ->
  new_cov_dt1 T rows = Ok ((size rows)%:R^-1 *: \sum_(p <- formed T rows) p.1^T *m p.2).
Proof.
move=> T0 hT; rewrite /new_cov_dt1 /compute_cov_right /formed py_zipE.
have hb : (0 < size rows %/ T)%N by rewrite divn_gt0.
have -> : size (future_rows T rows) == size (present_rows T rows).
  rewrite /future_rows /present_rows (negPf (lt0n_neq0 hb)) size_drop size_takel //; exact: leq_subr.
by [].
Qed.
Lemma regular_size T X (towers : seq (seq (seq X))) : regular T towers ->
  forall t, List.In t towers -> (T <= size (flatten t))%N.
Proof.
move=> [_ h] t /h [<- [b [b0 hb]]]; rewrite (size_flatten_const hb) leq_pmulr //.
Qed.
Lemma all_rows_size T X (towers : seq (seq (seq X))) : regular T towers -> (T <= size (all_rows towers))%N.
Proof.
move=> hr; have hs := regular_size hr; case: hr => + _; case: towers hs => [//|t l] hs _.
by rewrite /all_rows /= size_cat (leq_trans (hs t (or_introl erefl))) // leq_addr.
Qed.
Lemma concat_stats T (towers : seq (seq (seq 'rV[F]_n))) rows : regular T towers -> (0 < T)%N ->
  Permutation rows (all_rows towers) -> Permutation (formed T rows) (all_pairs towers) ->
  multi_new_cov (Rank2 rows) = compute_cov (all_rows towers) /\
  multi_new_cov_dt1 T (Rank2 rows) =
    Ok ((size (all_rows towers))%:R^-1 *: \sum_(p <- all_pairs towers) p.1^T *m p.2).
Proof.
move=> hr T0 p1 p2; split; first exact: perm_cov.
by rewrite /multi_new_cov_dt1 /= dt1_of_pairs ?(perm_size p1) ?(perm_sum _ p2) // all_rows_size.
Qed.
Lemma separate_stats T (towers : seq (seq (seq 'rV[F]_n))) t : regular T towers -> (0 < T)%N ->
  List.In t towers ->
  multi_new_cov_dt1 T (Rank2 (flatten t)) =
    Ok ((size (flatten t))%:R^-1 *: \sum_(p <- successive t) p.1^T *m p.2).
Proof.
move=> hr T0 ht; rewrite /multi_new_cov_dt1 /= dt1_of_pairs ?(formed_separate hr) //.
exact: regular_size hr _ ht.
Qed.
End Sums.

(** Tensors of rank 3 *)
Lemma vector_fits T b n bias : assign_series_vector [:: T; b; n] bias = Ok tt <-> b = n.
Proof.
rewrite /assign_series_vector /=; case: eqP => [h|h]; split=> //.
  by move: h => /eqP; rewrite eqn_add2r => /eqP ->.
by move=> e; case: h; rewrite e.
Qed.

(** Sub-sampled convolution inputs *)
Lemma sub_size X p (d : X) shuffled inputs : (size inputs <= size shuffled)%N -> (0 < size inputs)%N ->
  size (conv_factor_inputs true (1, p.+1)%N shuffled d inputs) = ((size inputs).-1 %/ p.+1).+1.
Proof.
move=> h h0; rewrite /conv_factor_inputs size_map size_takel /sub_sampled_size /= muln1.
  by case: (size inputs) h0 => [//|k] _ /=; rewrite addSnnS divnDr // divnn /= addn1.
case: (size inputs) h0 h => [//|k] _ h; rewrite addSnnS divnDr // divnn /= addn1.
by apply: leq_trans h; rewrite ltnS leq_div.
Qed.

Lemma sub_all X (d : X) T q shuffled inputs : (0 < q)%N -> Permutation shuffled (iota 0 (size inputs)) ->
  Permutation (conv_factor_inputs (sub_sample_inputs_setting false (conv_multi_sub_sample_inputs T))
                 (q, q)%N shuffled d inputs) inputs.
Proof.
move=> q0 hp; rewrite /conv_factor_inputs; case: ifP => // _.
have hs := perm_size hp; rewrite size_iota in hs.
have -> : sub_sampled_size (q, q)%N (size inputs) = size shuffled.
  by rewrite /sub_sampled_size /= hs divnMDl // divn_small ?addn0 // prednK.
rewrite take_size -[X in Permutation _ X](nth_iota_map d); exact: Permutation_map.
Qed.
