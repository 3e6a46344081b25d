(** C77 for layers with the diagonal approximation: the statistics of DiagonalMultiKF. *)
From Verif.Base Require Import Py.
From mathcomp Require Import all_ssreflect all_algebra.
From Coq Require List.
From Coq Require Import Permutation.
From Verif.Blocks Require Import Model Spec StatProofs.
From Verif.Series Require Import Model Spec CovProofs DataProofs UseProofs Props.
Set Implicit Arguments.
Unset Strict Implicit.
Unset Printing Implicit Defensive.
Import GRing.Theory Num.Theory Order.TTheory.
Local Open Scope ring_scope.

Lemma diag_entry (F : rcfType) n (rows : seq 'rV[F]_n) j : diagkron_new_cov rows 0 j = compute_cov rows j j.
Proof.
rewrite compute_covE /avg /diagkron_new_cov !mxE !summxE; congr (_ * _); apply: eq_bigr => x _.
by rewrite !mxE big_ord1 !mxE expr2.
Qed.
Lemma diag_entry_bias (F : rcfType) n (rows : seq 'rV[F]_n) j : rows <> [::] ->
  diagkron_new_cov_bias rows 0 j = compute_cov (map (@append_homog F n) rows) j j.
Proof.
move=> h; rewrite -diag_entry /diagkron_new_cov_bias /append_homog /diagkron_new_cov size_map big_map.
have r0 : (size rows)%:R != 0 :> F by rewrite pnatr_eq0 size_eq0; apply/eqP.
rewrite !mxE summxE; case: (splitP j) => k hk.
  rewrite !mxE summxE; congr (_ * _); apply: eq_bigr => x _; rewrite !mxE.
  by have -> : j = lshift 1 k by [exact: val_inj]; rewrite (unsplitK (inl k)).
have -> : j = rshift n k by exact: val_inj.
rewrite (eq_bigr (fun=> 1)); last first.
  by move=> x _; rewrite !mxE (unsplitK (inr k)) !mxE ord1 eqxx expr1n.
have -> : \sum_(x <- rows) (1 : F) = (size rows)%:R.
  by rewrite big_const_seq count_predT -Monoid.iteropE.
by rewrite !mxE ord1 eqxx mulVf.
Qed.

(** The statistics of the diagonal approximation are the diagonal of the second moment of all
    rows, of all uses and towers; with a bias those of the rows with the constant appended. *)
Theorem C77_diagonal_statistics :
  forall (F : rcfType) (n T : nat) (towers : seq (seq (seq 'rV[F]_n))),
    (0 < T)%N -> regular T towers -> all_rows towers <> [::] ->
    (exists rows, merge_towers Concat towers = Ok [:: Rank2 rows] /\
      (forall j, multi_diag_new_cov (Rank2 rows) 0 j = compute_cov (all_rows towers) j j) /\
      (forall j, multi_diag_new_cov_bias (Rank2 rows) 0 j =
                 compute_cov (map (@append_homog F n) (all_rows towers)) j j)) /\
    exists ts, merge_towers Separate towers = Ok ts /\
      List.Forall2 (fun uses t =>
        (forall j, multi_diag_new_cov t 0 j = compute_cov (flatten uses) j j) /\
        (flatten uses <> [::] -> forall j, multi_diag_new_cov_bias t 0 j =
                 compute_cov (map (@append_homog F n) (flatten uses)) j j)) towers ts.
Proof.
move=> F n T towers T0 hr h0; split.
  eexists; split; first exact: (merge_concat T0 (proj1 hr) (regular_sizes hr)).
  have p := blocks_perm (regular_sizes hr); split=> j.
    by rewrite /multi_diag_new_cov /= diag_entry (perm_cov p).
  have q : Permutation (map (@append_homog F n) (flatten (blocks towers T))) (map (@append_homog F n) (all_rows towers)).
    exact: (Permutation_map _ p).
  rewrite /multi_diag_new_cov_bias /= diag_entry_bias ?(perm_cov q) // => e.
  by apply: h0; apply: size0nil; rewrite /all_rows -(perm_size p) e.
eexists; split; first exact: (merge_separate T0 (regular_sizes hr)).
elim: towers {hr h0} => [|t l IH]; constructor=> //.
split=> [j|h j]; first by rewrite /multi_diag_new_cov /= diag_entry.
by rewrite /multi_diag_new_cov_bias /= diag_entry_bias.
Qed.
Print Assumptions C77_diagonal_statistics.

(** One tower with two uses of one example each. *)
Example C77_diagonal_hypotheses_met (F : rcfType) :
  let towers := [:: [:: [:: (const_mx 1 : 'rV[F]_2)]; [:: const_mx 2%:R]]] in
  regular 2 towers /\ all_rows towers <> [::].
Proof.
split; last by [].
split=> // t /= [<-|[]]; split=> //; exists 1%N; split=> // u.
by move=> [<-|[<-|[]]].
Qed.
