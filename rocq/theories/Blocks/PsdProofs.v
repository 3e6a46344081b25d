From mathcomp Require Import all_ssreflect all_algebra.
From Verif.Base Require Import Py.
From Verif.Blocks Require Import Model Spec MatProofs.
Set Implicit Arguments.
Unset Strict Implicit.
Unset Printing Implicit Defensive.
Import GRing.Theory Num.Theory Order.TTheory.
Local Open Scope ring_scope.

Section Psd.
Variable F : rcfType.

Definition qf n (M : 'M[F]_n) (x : 'cV[F]_n) : F := (x^T *m M *m x) 0 0.

Lemma qfD n (A B : 'M[F]_n) x : qf (A + B) x = qf A x + qf B x.
Proof. by rewrite /qf mulmxDr mulmxDl mxE. Qed.
Lemma qfZ n a (A : 'M[F]_n) x : qf (a *: A) x = a * qf A x.
Proof. by rewrite /qf -scalemxAr -scalemxAl mxE. Qed.
Lemma qf_outer n p (X : 'M[F]_(p, n)) x : qf (X^T *m X) x = \sum_i ((X *m x) i 0) ^+ 2.
Proof.
rewrite /qf mulmxA -mulmxA -trmx_mul mxE; apply: eq_bigr => i _.
by rewrite mxE expr2.
Qed.
Lemma qf1 n x : qf (1%:M : 'M[F]_n) x = \sum_i (x i 0) ^+ 2.
Proof. by rewrite -[1%:M]mulmx1 -{1}[1%:M]trmx1 qf_outer mul1mx. Qed.

Lemma sumsq_ge0 n (x : 'cV[F]_n) : 0 <= \sum_i (x i 0) ^+ 2.
Proof. by apply: sumr_ge0 => i _; apply: sqr_ge0. Qed.
Lemma sumsq_gt0 n (x : 'cV[F]_n) : x != 0 -> 0 < \sum_i (x i 0) ^+ 2.
Proof.
move=> h; rewrite lt_neqAle sumsq_ge0 andbT eq_sym; apply: contraNneq h => h.
apply/eqP/matrixP => i j; rewrite ord1 mxE.
move/eqP: h; rewrite psumr_eq0 => [/allP h|k _]; last exact: sqr_ge0.
by have := h i (mem_index_enum _); rewrite sqrf_eq0 => /eqP.
Qed.

Lemma psd0 n : psd (0 : 'M[F]_n).
Proof. by split=> [|x]; rewrite ?trmx0 // mulmx0 mul0mx mxE. Qed.
Lemma psdD n (A B : 'M[F]_n) : psd A -> psd B -> psd (A + B).
Proof.
move=> [ha pa] [hb pb]; split=> [|x]; first by rewrite linearD /= ha hb.
by rewrite -/(qf _ _) qfD; exact: addr_ge0 (pa x) (pb x).
Qed.
Lemma psdZ n a (A : 'M[F]_n) : 0 <= a -> psd A -> psd (a *: A).
Proof.
move=> a0 [ha pa]; split=> [|x]; first by rewrite linearZ /= ha.
by rewrite -/(qf _ _) qfZ; exact: mulr_ge0 a0 (pa x).
Qed.
Lemma psd_sum n (I : Type) (r : seq I) (f : I -> 'M[F]_n) :
  (forall i, psd (f i)) -> psd (\sum_(i <- r) f i).
Proof. by move=> h; apply: big_ind => //; [apply: psd0 | apply: psdD]. Qed.
Lemma psd_outer n p (X : 'M[F]_(p, n)) : psd (X^T *m X).
Proof.
split=> [|x]; first by rewrite trmx_mul trmxK.
by rewrite -/(qf _ _) qf_outer; apply: sumr_ge0 => i _; apply: sqr_ge0.
Qed.
Lemma psd_scalar n a : 0 <= a -> psd (a *: 1%:M : 'M[F]_n).
Proof. by move=> h; apply: psdZ => //; rewrite -[1%:M]mulmx1 -{1}[1%:M]trmx1; apply: psd_outer. Qed.

Lemma pd_psd n (M : 'M[F]_n) : pd M -> psd M.
Proof.
move=> [h p]; split=> // x; have [->|nz] := eqVneq x 0; last exact/ltW/p.
by rewrite mulmx0 mxE.
Qed.
Lemma psd_damped n (M : 'M[F]_n) d : psd M -> 0 < d -> pd (M + d *: 1%:M).
Proof.
move=> [h p] d0; split=> [|x nz].
  by rewrite linearD linearZ /= trmx1 h.
rewrite -/(qf _ _) qfD qfZ qf1; apply: ltr_paddl; first exact: p.
by apply: mulr_gt0 => //; exact: sumsq_gt0.
Qed.
Lemma pd_unit n (M : 'M[F]_n) : pd M -> M \in unitmx.
Proof.
move=> [h p]; rewrite -row_free_unit -kermx_eq0; apply/eqP/row_matrixP => i.
apply/eqP; rewrite row0; apply: contraT => nz.
have hk : row i (kermx M) *m M = 0 by apply/sub_kermxP; exact: row_sub.
have := p (row i (kermx M))^T; rewrite trmx_eq0 nz => /(_ isT).
by rewrite trmxK hk mul0mx mxE ltxx.
Qed.
Lemma pd_gram n (L : 'M[F]_n) : L \in unitmx -> pd (L *m L^T).
Proof.
move=> hL; split=> [|x nz]; first by rewrite trmx_mul trmxK.
rewrite -{1}[L]trmxK -/(qf _ _) qf_outer; apply: sumsq_gt0.
apply: contraNneq nz => h.
have : invmx L^T *m (L^T *m x) = x by rewrite mulKmx // unitmx_tr.
by rewrite h mulmx0 => <-.
Qed.

(** * Cholesky *)
Lemma delta0_neq0 p : (delta_mx 0 0 : 'cV[F]_(1 + p)) != 0.
Proof. by apply/eqP => /matrixP /(_ 0 0); rewrite !mxE !eqxx /= => /eqP; rewrite oner_eq0. Qed.

Lemma pd_pivot p (M : 'M[F]_(1 + p)) : pd M -> 0 < M 0 0.
Proof.
move=> [_ h]; have := h _ (delta0_neq0 p).
by rewrite trmx_delta -rowE -colE !mxE.
Qed.

Lemma pd_split p (M : 'M[F]_(1 + p)) : pd M ->
  M = block_mx (M 0 0)%:M (dlsubmx M)^T (dlsubmx M) (drsubmx M).
Proof.
move=> [h _]; rewrite -[LHS]submxK; congr block_mx.
  apply/matrixP => i j; rewrite !ord1 !mxE eqxx mulr1n.
  by congr (M _ _); apply: val_inj.
by rewrite trmx_dlsub h.
Qed.

Lemma schur_pd p (M : 'M[F]_(1 + p)) : pd M ->
  pd (drsubmx M - (M 0 0)^-1 *: (dlsubmx M *m (dlsubmx M)^T)).
Proof.
move=> hM; have a0 := pd_pivot hM; have hs := pd_split hM; case: (hM) => hsym hpos.
set b := dlsubmx M in hs *; set D := drsubmx M in hs *; set a := M 0 0 in a0 hs *.
have hD : D^T = D.
  by rewrite /D trmx_drsub hsym.
split=> [|y nz].
  by rewrite linearB linearZ /= trmx_mul trmxK hD.
pose beta := (b^T *m y) 0 0.
have hb : b^T *m y = beta%:M by rewrite [LHS]mx11_scalar.
have hb' : y^T *m b = beta%:M by rewrite -[LHS]trmxK trmx_mul trmxK hb tr_scalar_mx.
pose t : 'cV[F]_1 := (- (a^-1 * beta))%:M; pose x : 'cV[F]_(1 + p) := col_mx t y.
have xnz : x != 0.
  apply: contraNneq nz => hx; have := congr1 dsubmx hx.
  by rewrite col_mxKd linear0 => ->.
have := hpos _ xnz; rewrite {1}hs /x tr_col_mx mul_row_block mul_row_col /t tr_scalar_mx.
rewrite mulmxDl -!mulmxA -!scalar_mxM [y^T *m (b *m _)]mulmxA hb' -scalar_mxM.
rewrite !mulmxDl -!mulmxA hb -!scalar_mxM.
rewrite mulNmx -scalemxAl mulmxBr -scalemxAr -[b *m b^T *m y]mulmxA [y^T *m (b *m _)]mulmxA.
rewrite hb' hb -!scalar_mxM; move: (y^T *m (D *m y)) => w.
rewrite !mxE eqxx !mulr1n.
have -> : - (a^-1 * beta) * (a * - (a^-1 * beta)) = a^-1 * (beta * beta).
  by rewrite mulrN mulrNN mulVKf ?gt_eqF // mulrA.
have -> : beta * - (a^-1 * beta) = - (a^-1 * (beta * beta)) by rewrite mulrN mulrCA.
have -> : - (a^-1 * beta) * beta = - (a^-1 * (beta * beta)) by rewrite mulNr mulrA.
by rewrite subrr add0r addrC.
Qed.

(** Lower triangular with a positive diagonal. *)
Definition lower n (L : 'M[F]_n) := forall i j : 'I_n, (i < j)%N -> L i j = 0.

Lemma chol_correct n (M : 'M[F]_n) : pd M ->
  [/\ tf_cholesky M *m (tf_cholesky M)^T = M, lower (tf_cholesky M),
      forall i, 0 < tf_cholesky M i i & tf_cholesky M \in unitmx].
Proof.
elim: n M => [|p IH] M hM.
  by rewrite flatmx0 /=; split=> [|||]; try case=> //; rewrite ?unitmxE ?det_mx00 ?unitr1 // flatmx0.
rewrite -[p.+1]/(1 + p)%N in M hM *.
have a0 := pd_pivot hM; have s0 : 0 < Num.sqrt (M 0 0) by rewrite sqrtr_gt0.
have hs := pd_split hM.
rewrite /tf_cholesky -/tf_cholesky /=.
set l := Num.sqrt (M 0 0) in s0 *; set v := l^-1 *: dlsubmx M.
have hv : v *m v^T = (M 0 0)^-1 *: (dlsubmx M *m (dlsubmx M)^T).
  rewrite /v linearZ /= -scalemxAl -scalemxAr scalerA -invfM.
  by rewrite -expr2 sqr_sqrtr ?ltW.
have hS : pd (drsubmx M - v *m v^T) by rewrite hv; exact: schur_pd.
have [h1 h2 h3 h4] := IH _ hS; set L := tf_cholesky _ in h1 h2 h3 h4 *.
split.
- rewrite tr_block_mx mulmx_block !tr_scalar_mx !trmx0 !mul0mx !mulmx0 !addr0 h1 -scalar_mxM.
  rewrite [in RHS]hs -expr2 sqr_sqrtr ?ltW // mul_scalar_mx mul_mx_scalar /v scalerA.
  by rewrite linearZ /= scalerA divff ?gt_eqF // !scale1r addrC subrK.
- move=> i j; rewrite -[i]splitK -[j]splitK; case: split => i'; case: split => j' /=;
    rewrite ?ord1 // ?block_mxEul ?block_mxEur ?block_mxEdl ?block_mxEdr //.
  + by rewrite mxE.
  + by rewrite ltn_add2l => /h2.
- move=> i; rewrite -[i]splitK; case: split => i' /=;
    rewrite ?ord1 // ?block_mxEul ?block_mxEur ?block_mxEdl ?block_mxEdr // mxE eqxx.
  by rewrite mulr1n.
- by rewrite unitmxE det_lblock unitrM -!unitmxE h4 unitmxE det_scalar1 unitfE gt_eqF.
Qed.
Lemma chol_gram n (M : 'M[F]_n) : pd M -> tf_cholesky M *m (tf_cholesky M)^T = M.
Proof. by case/chol_correct. Qed.
Lemma chol_unit n (M : 'M[F]_n) : pd M -> tf_cholesky M \in unitmx.
Proof. by case/chol_correct. Qed.

Lemma invmx_unique n (A B : 'M[F]_n) : A *m B = 1%:M -> B = invmx A.
Proof.
move=> h; have [u _] := mulmx1_unit h.
by rewrite -[B]mul1mx -(mulVmx u) -mulmxA h mulmx1.
Qed.

Lemma cholesky_solve_inv n (M : 'M[F]_n) : pd M ->
  cholesky_solve (tf_cholesky M) 1%:M = invmx M.
Proof.
move=> h; apply: invmx_unique; have [h1 _ _ u] := chol_correct h.
rewrite /cholesky_solve -{1}h1 mulmx1 -mulmxA [_^T *m _]mulmxA mulmxV ?unitmx_tr //.
by rewrite mul1mx mulmxV.
Qed.

(** * Kronecker products of positive semidefinite matrices *)
Lemma psd_gram n p (L : 'M[F]_(n, p)) : psd (L *m L^T).
Proof. by rewrite -{1}[L]trmxK; apply: psd_outer. Qed.

End Psd.
