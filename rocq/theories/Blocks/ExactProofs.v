(** When the Kronecker factorisation is exact: proofs for C122. *)
From mathcomp Require Import all_ssreflect all_algebra.
From Verif.Base Require Import Py.
From Verif.Blocks Require Import Model Spec MatProofs PsdProofs EigProofs FactorProofs ServeProofs BlockProofs
  StatProofs SuaProofs EndProofs UnitsProofs RotateProofs ExactSpec.
Set Implicit Arguments.
Unset Strict Implicit.
Unset Printing Implicit Defensive.
Import GRing.Theory Num.Theory Order.TTheory.
Local Open Scope ring_scope.

Section Exact.
Variable F : rcfType.

Lemma avg1 X m n (f : X -> 'M[F]_(m, n)) x : avg f [:: x] = f x.
Proof. by rewrite /avg big_seq1 invr1 scale1r. Qed.
Lemma input_avg m b (xs : seq 'rV[F]_m) : input_statistic b xs = avg (fun x => (ext b x)^T *m ext b x) xs.
Proof.
by case: b => /=; rewrite /fc_new_cov_bias /fc_new_cov compute_covE // /avg size_map big_map.
Qed.
Lemma input_momentE m b (x : 'rV[F]_m) : input_moment b x = (ext b x)^T *m ext b x.
Proof. by rewrite /input_moment input_avg avg1. Qed.
Lemma output_momentE n (g : 'rV[F]_n) : output_moment g = g^T *m g.
Proof. by rewrite /output_moment /fc_new_cov compute_covE avg1. Qed.

Lemma outer_kron m n (u : 'rV[F]_m) (g : 'rV[F]_n) :
  vec (u^T *m g) *m (vec (u^T *m g))^T = kronecker_product (u^T *m u) (g^T *m g).
Proof.
apply/matrixP => r s; rewrite -(rm_posK r) -(rm_posK s) kronE !mxE !big_ord_recl !big_ord0 !addr0.
by rewrite [in X in _ * X]mxE !vecE !mxE !big_ord_recl !big_ord0 !addr0 !mxE; rewrite mulrACA.
Qed.
Lemma block_avg m n b (ex : seq (example F m n)) (B : 'M[F]_(rows m b * n)) : is_block ex B ->
  B = avg (fun e => kronecker_product (input_moment b e.1) (output_moment e.2)) ex.
Proof.
move=> [c [hc ->]]; apply: avg_eq => e.
by rewrite (gradient_unique (hc e)) big_seq1 outer_kron input_momentE output_momentE.
Qed.
Lemma block_exists m n b (ex : seq (example F m n)) : exists B : 'M[F]_(rows m b * n), is_block ex B.
Proof.
have [g h] := @gradient_exists F m n b.
by exists ((size ex)%:R^-1 *: \sum_(e <- ex) g [:: e] *m (g [:: e])^T), (fun e => g [:: e]); split.
Qed.

(** The covariance of two quantities. *)
Lemma mean_products X (s : seq X) (a b : X -> F) (N := (size s)%:R : F) :
  (N^-1 * \sum_(x <- s) a x * b x) - (N^-1 * \sum_(x <- s) a x) * (N^-1 * \sum_(x <- s) b x)
  = (2%:R * N ^+ 2)^-1 * \sum_(x <- s) \sum_(y <- s) (a x - a y) * (b x - b y).
Proof.
set A := \sum_(x <- s) a x; set B := \sum_(x <- s) b x; set C := \sum_(x <- s) _.
have inner x : \sum_(y <- s) (a x - a y) * (b x - b y) = N * (a x * b x) - a x * B - A * b x + C.
  rewrite (eq_bigr (fun y => a x * b x - a x * b y - a y * b x + a y * b y)) => [|y _]; last first.
    by rewrite mulrBl !mulrBr opprB [_ - (a y * b x)]addrC !addrA [a x * b x - _ + _]addrAC
       -!addrA; congr (_ + _); rewrite addrCA addrA addrC.
  have e0 : \sum_(y <- s) a x * b x = N * (a x * b x) by rewrite big_const_seq count_predT iter_addr_0 mulr_natl.
  have e1 : \sum_(y <- s) a x * b y = a x * B by rewrite mulr_sumr.
  have e2 : \sum_(y <- s) a y * b x = A * b x by rewrite mulr_suml.
  by rewrite big_split /= !sumrB e0 e1 e2.
rewrite (eq_bigr _ (fun x _ => inner x)) big_split /= !sumrB -!mulr_sumr -!mulr_suml -/A -/B -/C.
rewrite big_const_seq count_predT iter_addr_0 -[C *+ _]mulr_natl -/N.
have [N0|N0] := eqVneq N 0.
  by rewrite N0 expr0n /= mulr0 !invr0 !mul0r subr0.
have -> : N * C - A * B - A * B + N * C = 2%:R * (N * C - A * B).
  by rewrite mulr_natl mulr2n addrAC addrA addrAC -!addrA; congr (_ + _); rewrite addrCA.
have n2 : 2%:R != 0 :> F by rewrite pnatr_eq0.
have -> : (2%:R * N ^+ 2)^-1 * (2%:R * (N * C - A * B)) = (N ^+ 2)^-1 * (N * C - A * B).
  by rewrite invfM mulrACA mulVf // mul1r.
rewrite mulrBr expr2 invfM; congr (_ - _).
- by rewrite -mulrA [N^-1 * (N * C)]mulrA mulVf // mul1r.
- by rewrite mulrACA.
Qed.

Lemma mean_pairs (x g A G : F) : x * g != 0 ->
  (x * g)^-1 * (A * G) = (x * g)^-1 * (A * g) * ((x * g)^-1 * (x * G)).
Proof.
move=> d0; rewrite [RHS]mulrACA; have -> : A * g * (x * G) = x * g * (A * G).
  by rewrite [A * g]mulrC mulrACA [g * x]mulrC.
by rewrite [RHS]mulrA mulfVK.
Qed.

Lemma damped_kron m n (A : 'M[F]_m) (G : 'M[F]_n) (a g : F) :
  kronecker_product (A + a *: 1%:M) (G + g *: 1%:M)
  = kronecker_product A G + g *: kronecker_product A 1%:M + a *: kronecker_product 1%:M G + (a * g) *: 1%:M.
Proof. by rewrite kronDl !kronDr !kronZl !kronZr kron1 scalerA !addrA. Qed.

Section Batch.
Variables (m n : nat) (b : bool).
Notation M e := (input_moment b (e : example F m n).1).
Notation P e := (output_moment (e : example F m n).2).

Lemma kron_avg (ex : seq (example F m n)) r s :
  kronecker_product (input_statistic b (unzip1 ex)) (fc_new_cov (unzip2 ex)) r s
  = ((size ex)%:R^-1 * \sum_(e <- ex) M e (rm_row r) (rm_row s))
  * ((size ex)%:R^-1 * \sum_(e <- ex) P e (rm_col r) (rm_col s)).
Proof.
rewrite -{1}(rm_posK r) -{1}(rm_posK s) kronE input_avg /fc_new_cov compute_covE /avg /unzip1 /unzip2 !size_map !big_map.
rewrite !mxE !summxE; congr (_ * _ * (_ * _)); apply: eq_bigr => e _; by rewrite ?input_momentE ?output_momentE.
Qed.
Lemma block_entry (ex : seq (example F m n)) B r s : is_block ex B ->
  B r s = (size ex)%:R^-1 * \sum_(e <- ex) M e (rm_row r) (rm_row s) * P e (rm_col r) (rm_col s).
Proof.
move/block_avg ->; rewrite /avg !mxE summxE; congr (_ * _); apply: eq_bigr => e _.
by rewrite -{1}(rm_posK r) -{1}(rm_posK s) kronE.
Qed.

Lemma block_error (ex : seq (example F m n)) (B : 'M[F]_(rows m b * n)) : is_block ex B ->
  B - kronecker_product (input_statistic b (unzip1 ex)) (fc_new_cov (unzip2 ex))
  = (2%:R * (size ex)%:R ^+ 2)^-1 *:
    \sum_(e <- ex) \sum_(e' <- ex) kronecker_product (M e - M e') (P e - P e').
Proof.
move=> h; apply/matrixP => r s; rewrite [LHS]mxE [X in _ + X]mxE (block_entry _ _ h) kron_avg mean_products.
rewrite mxE summxE; congr (_ * _); apply: eq_bigr => e _; rewrite summxE; apply: eq_bigr => e' _.
by rewrite -{5}(rm_posK r) -{5}(rm_posK s) kronE !mxE.
Qed.

Lemma block_same (ex : seq (example F m n)) (B : 'M[F]_(rows m b * n)) : is_block ex B ->
  (forall i j, (i < size ex)%N -> (j < size ex)%N ->
     let e := nth (0, 0) ex i in let e' := nth (0, 0) ex j in M e = M e' \/ P e = P e') ->
  B = kronecker_product (input_statistic b (unzip1 ex)) (fc_new_cov (unzip2 ex)).
Proof.
move=> h H; apply/eqP; rewrite -subr_eq0 (block_error h); apply/eqP.
rewrite (big_nth (0, 0)) big_seq big1 ?scaler0 // => i; rewrite mem_index_iota => /andP [_ hi].
rewrite (big_nth (0, 0)) big_seq big1 // => j; rewrite mem_index_iota => /andP [_ hj].
case: (H i j hi hj) => ->; rewrite subrr.
- by apply/matrixP => r s; rewrite -(rm_posK r) -(rm_posK s) kronE !mxE mul0r.
- by apply/matrixP => r s; rewrite -(rm_posK r) -(rm_posK s) kronE !mxE mulr0.
Qed.

Lemma block_product (xs : seq 'rV[F]_m) (gs : seq 'rV[F]_n) (B : 'M[F]_(rows m b * n)) :
  let ex := [seq (x, g) | x <- xs, g <- gs] in
  is_block ex B ->
  B = kronecker_product (input_statistic b (unzip1 ex)) (fc_new_cov (unzip2 ex)) /\
  (xs <> [::] -> gs <> [::] ->
   B = kronecker_product (input_statistic b xs) (fc_new_cov gs)).
Proof.
move=> ex h.
have E r s : B r s = (size ex)%:R^-1 * ((\sum_(x <- xs) input_moment b x (rm_row r) (rm_row s))
    * (\sum_(g <- gs) output_moment g (rm_col r) (rm_col s))).
  rewrite (block_entry _ _ h); congr (_ * _); rewrite /ex big_allpairs mulr_suml; apply: eq_bigr => x _ /=.
  by rewrite mulr_sumr.
have sz : size ex = (size xs * size gs)%N by rewrite size_allpairs.
split.
- apply/matrixP => r s; rewrite E kron_avg.
  set A := \sum_(x <- xs) _; set G := \sum_(g <- gs) _.
  have -> : \sum_(e <- ex) M e (rm_row r) (rm_row s) = A * (size gs)%:R.
    rewrite /ex big_allpairs mulr_suml; apply: eq_bigr => x _ /=.
    by rewrite big_const_seq count_predT iter_addr_0 mulr_natr.
  have -> : \sum_(e <- ex) P e (rm_col r) (rm_col s) = (size xs)%:R * G.
    by rewrite /ex big_allpairs /= big_const_seq count_predT iter_addr_0 mulr_natl.
  rewrite sz natrM.
  have [x0|x0] := eqVneq ((size xs)%:R : F) 0; first by rewrite x0 !mul0r invr0 !mul0r.
  have [g0|g0] := eqVneq ((size gs)%:R : F) 0; first by rewrite g0 !mulr0 invr0 !mul0r.
  by apply: mean_pairs; rewrite mulf_neq0.
- move=> /eqP; rewrite -size_eq0 => x0 /eqP; rewrite -size_eq0 => g0.
  apply/matrixP => r s; rewrite E sz natrM invfM.
  rewrite -{3}(rm_posK r) -{3}(rm_posK s) kronE input_avg /fc_new_cov compute_covE /avg !mxE !summxE mulrACA.
  by congr (_ * _ * (_ * _)); apply: eq_bigr => e _; rewrite ?input_momentE ?output_momentE.
Qed.
End Batch.
End Exact.
