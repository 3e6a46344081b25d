(** What tf.svd computes exists. *)
From mathcomp Require Import all_ssreflect all_algebra.
From Verif.Base Require Import Py.
From Verif.Blocks Require Import Model Spec MatProofs PsdProofs EigProofs FactorProofs.
From Verif.Series Require Import Model Spec QuantProofs.
Set Implicit Arguments.
Unset Strict Implicit.
Unset Printing Implicit Defensive.
Import GRing.Theory Num.Theory Order.TTheory.
Local Open Scope ring_scope.

Section SvdExists.
Variable F : rcfType.

Lemma unit_vector p (u0 : 'rV[F]_p) : u0 != 0 ->
  exists c, ((c *: u0) *m (c *: u0)^T) 0 0 = 1.
Proof.
move=> unz; have pos := dot_gt0 unz; exists (Num.sqrt ((u0 *m u0^T) 0 0))^-1.
rewrite linearZ /= -scalemxAl -scalemxAr scalerA entZ -invfM -expr2 sqr_sqrtr ?ltW //.
by rewrite mulVf ?gt_eqF.
Qed.

(** Orthogonal columns of given lengths. *)
Lemma orthogonal_columns n (B : 'M[F]_n) (d : 'rV[F]_n) :
  B^T *m B = diag_mx d -> (forall i, 0 <= d 0 i) ->
  exists U : 'M[F]_n, U *m U^T = 1%:M /\ B = U *m diag_mx (\row_i Num.sqrt (d 0 i)).
Proof.
elim: n B d => [|p IH] B d hB d0.
  by exists 1%:M; split; rewrite ?trmx1 ?mulmx1 // !flatmx0.
rewrite -[p.+1]/(1 + p)%N in B d hB d0 *.
have hBe i j : (B^T *m B) i j = d 0 i *+ (i == j) by rewrite hB !mxE.
have [u [hu huB hcol]] : exists u : 'rV[F]_(1 + p), [/\ (u *m u^T) 0 0 = 1,
    u *m B = Num.sqrt (d 0 0) *: delta_mx 0 0 & col 0 B = Num.sqrt (d 0 0) *: u^T].
  have [z|nz] := eqVneq (d 0 0) 0.
    have c0 : col 0 B = 0.
      have : ((col 0 B)^T *m col 0 B) 0 0 = 0.
        rewrite colE trmx_mul -mulmxA [B^T *m _]mulmxA hB trmx_delta.
        by rewrite mulmxA -rowE -colE !mxE eqxx z mul0rn.
      rewrite -[X in _ *m X]trmxK => h; apply/eqP; apply: contraT => nz.
      have := @dot_gt0 F _ (col 0 B)^T; rewrite trmx_eq0 => /(_ nz); by rewrite h ltxx.
    have : ~~ row_free B.
      apply/negP; rewrite row_free_unit => hu.
      have := congr1 (fun M => invmx B *m M) c0; rewrite colE mulKmx // mulmx0 => h.
      have := congr1 (fun M : 'cV[F]_(1 + p) => M 0 0) h; rewrite !mxE !eqxx => /eqP.
      by rewrite oner_eq0.
    rewrite -kermx_eq0 => /rowV0Pn [v /sub_kermxP hv nv].
    have [c hc] := unit_vector nv; exists (c *: v); split=> //.
      by rewrite z sqrtr0 scale0r -scalemxAl hv scaler0.
    by rewrite z sqrtr0 scale0r.
  have pos : 0 < d 0 0 by rewrite lt_neqAle eq_sym nz d0.
  have s0 : Num.sqrt (d 0 0) != 0 by rewrite gt_eqF ?sqrtr_gt0.
  exists ((Num.sqrt (d 0 0))^-1 *: (col 0 B)^T); split.
  - rewrite linearZ /= -scalemxAl -scalemxAr scalerA entZ trmxK colE trmx_mul -mulmxA.
    rewrite [B^T *m _]mulmxA hB trmx_delta mulmxA -rowE -colE !mxE eqxx mulr1n.
    by rewrite -invfM -expr2 sqr_sqrtr ?ltW // mulVf.
  - rewrite -scalemxAl colE trmx_mul -mulmxA hB trmx_delta -rowE.
    apply/rowP => j; rewrite !mxE eqxx /=.
    case: (altP (j =P 0)) => [->|nj]; last by rewrite eq_sym (negbTE nj) mulr0n !mulr0.
    rewrite eqxx !mulr1n mulr1 -[X in _ * X](sqr_sqrtr (ltW pos)) expr2 mulrA mulVf // mul1r //.
  - by rewrite linearZ /= trmxK scalerA mulfV // scale1r.
have [H [hH hHH heH]] := householder hu.
have huH : u *m H = delta_mx 0 0 by rewrite -heH -mulmxA hHH mulmx1.
have [C hC] : exists C, C = H *m B by exists (H *m B).
have hCC : C^T *m C = diag_mx d by rewrite hC trmx_mul hH -mulmxA [H *m _]mulmxA hHH mul1mx hB.
have row0 j : C 0 j = Num.sqrt (d 0 0) * (j == 0)%:R.
  have : delta_mx 0 0 *m C = Num.sqrt (d 0 0) *: (delta_mx 0 0 : 'rV[F]_(1 + p)).
    by rewrite hC mulmxA heH huB.
  by move/(congr1 (fun w : 'rV__ => w 0 j)); rewrite -rowE !mxE eqxx.
have col0 i : C i 0 = Num.sqrt (d 0 0) * (i == 0)%:R.
  have : C *m delta_mx 0 0 = Num.sqrt (d 0 0) *: (delta_mx 0 0 : 'cV[F]_(1 + p)).
    by rewrite hC -mulmxA -colE hcol -scalemxAr -hH -trmx_mul huH trmx_delta.
  by move/(congr1 (fun w : 'cV__ => w i 0)); rewrite -colE !mxE eqxx andbT.
have z0 : lshift p (0 : 'I_1) = 0 by apply: val_inj.
have hC' : C = block_mx (Num.sqrt (d 0 0))%:M 0 0 (drsubmx C).
  rewrite -[LHS]submxK; congr block_mx; apply/matrixP => i j; rewrite !mxE ?ord1 ?[j]ord1 z0.
  - by rewrite row0 eqxx mulr1.
  - by rewrite row0 mulr0.
  - by rewrite col0 mulr0.
have hd : d = row_mx (d 0 0)%:M (rsubmx d).
  rewrite -[LHS]hsubmxK; congr row_mx; apply/matrixP => i j; rewrite !mxE !ord1 z0 //.
have hD : (drsubmx C)^T *m drsubmx C = diag_mx (rsubmx d).
  have hdd : diag_mx d = block_mx (diag_mx (d 0 0)%:M) 0 0 (diag_mx (rsubmx d)).
    by rewrite {1}hd block_diag_row.
  have := hCC; rewrite hdd {1 2}hC' tr_block_mx mulmx_block !trmx0 !mul0mx !mulmx0 !addr0 !add0r.
  by case/eq_block_mx.
have [U' [h1 h2]] := IH _ _ hD (fun i => ltac:(rewrite mxE; exact: d0)).
exists (H *m block_mx (1%:M : 'M[F]_1) 0 0 U').
have hW : block_mx (1%:M : 'M[F]_1) 0 0 U' *m (block_mx (1%:M : 'M[F]_1) 0 0 U')^T = 1%:M.
  rewrite tr_block_mx mulmx_block !trmx0 !mul0mx !mulmx0 !addr0 !add0r h1 trmx1 mulmx1.
  by rewrite -scalar_mx_block.
split.
  by rewrite trmx_mul hH -mulmxA [block_mx _ _ _ _ *m _]mulmxA hW mul1mx.
rewrite -[B]mul1mx -hHH -!mulmxA -hC; congr (_ *m _).
have -> : \row_i Num.sqrt (d 0 i) = row_mx (Num.sqrt (d 0 0))%:M (\row_i Num.sqrt (rsubmx d 0 i)).
  apply/rowP => i; rewrite -(splitK i); case: split => i' /=; rewrite ?row_mxEl ?row_mxEr !mxE //.
  by rewrite !ord1 z0.
rewrite block_diag_row mulmx_block !mul0mx !mulmx0 !addr0 !add0r mul1mx -h2 {1}hC'.
by congr block_mx; apply/matrixP => i j; rewrite !mxE !ord1 !eqxx.
Qed.

Lemma svd_exists n (M : 'M[F]_n) : exists s : 'rV[F]_n * 'M[F]_n * 'M[F]_n,
  [&& s.1.2 *m s.1.2^T == 1%:M, s.2 *m s.2^T == 1%:M, [forall i, 0 <= s.1.1 0 i]
    & M == s.1.2 *m diag_mx s.1.1 *m s.2^T].
Proof.
have sym : (M^T *m M)^T = M^T *m M by rewrite trmx_mul trmxK.
have [[d V] [/= hV hE]] := spectral sym; have hV' := orth_unit hV.
have d0 i : 0 <= d 0 i.
  rewrite -(diag_entry i hV hV hE) /bf -mulmxA -mulmxA mulmxA -trmx_mul.
  have -> : (M *m col i V)^T *m (M *m col i V) = (M *m col i V)^T *m ((M *m col i V)^T)^T by rewrite trmxK.
  exact: dot_ge0.
have hB : (M *m V)^T *m (M *m V) = diag_mx d.
  by rewrite trmx_mul -mulmxA [M^T *m _]mulmxA hE !mulmxA hV' mul1mx -mulmxA hV' mulmx1.
have [U [hU hBU]] := orthogonal_columns hB d0.
exists (\row_i Num.sqrt (d 0 i), U, V) => /=; rewrite hU hV !eqxx /=; apply/andP; split.
  by apply/forallP => i; rewrite mxE sqrtr_ge0.
by rewrite -hBU -mulmxA hV mulmx1.
Qed.
Definition an_svd n (M : 'M[F]_n) : 'rV[F]_n * 'M[F]_n * 'M[F]_n := xchoose (svd_exists M).
Lemma an_svd_contract : svd_contract an_svd.
Proof.
move=> n M; have := xchooseP (svd_exists M); rewrite -/(an_svd M); case: (an_svd M) => [[s U] V] /=.
by case/and4P => /eqP h1 /eqP h2 /forallP h3 /eqP h4.
Qed.
End SvdExists.
