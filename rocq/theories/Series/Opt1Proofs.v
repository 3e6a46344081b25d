(** What the first series option computes. *)
From mathcomp Require Import all_ssreflect all_algebra.
From Verif.Base Require Import Py.
From Verif.Blocks Require Import Model Spec MatProofs PsdProofs EigProofs FactorProofs.
From Verif.Series Require Import Model Spec QuantProofs.
Set Implicit Arguments.
Unset Strict Implicit.
Unset Printing Implicit Defensive.
Import GRing.Theory Num.Theory Order.TTheory.
Local Open Scope ring_scope.

Section Opt1.
Variable F : rcfType.
Variable eigh : forall n, 'M[F]_n -> 'rV[F]_n * 'M[F]_n.
Variable svd : forall n, 'M[F]_n -> 'rV[F]_n * 'M[F]_n * 'M[F]_n.
Variable pow : F -> F -> F.
Hypothesis eighP : eigh_contract eigh.
Hypothesis svdP : svd_contract svd.
Hypothesis powP : power_laws pow.

(** A positive semidefinite matrix is determined by its square. *)
Lemma psd_square_inj n (P Q : 'M[F]_n) (a b : 'rV[F]_n) :
  P *m P^T = 1%:M -> Q *m Q^T = 1%:M -> (forall i, 0 <= a 0 i) -> (forall i, 0 <= b 0 i) ->
  P *m diag_mx (\row_i a 0 i ^+ 2) *m P^T = Q *m diag_mx (\row_i b 0 i ^+ 2) *m Q^T ->
  P *m diag_mx a *m P^T = Q *m diag_mx b *m Q^T.
Proof.
move=> hP hQ a0 b0 h; have hP' := orth_unit hP; have hQ' := orth_unit hQ.
have e (c d : 'rV[F]_n) : diag_mx c *m (P^T *m Q) = (P^T *m Q) *m diag_mx d <->
  P *m diag_mx c *m P^T = Q *m diag_mx d *m Q^T.
  split=> hh.
    by rewrite -[LHS]mulmx1 -hQ mulmxA -[_ *m P^T *m Q]mulmxA -[P *m _ *m _]mulmxA hh !mulmxA hP mul1mx.
  rewrite -[LHS]mul1mx -hP' -!mulmxA [diag_mx c *m _]mulmxA [P *m _]mulmxA [P *m _]mulmxA hh.
  by rewrite -!mulmxA hQ' mulmx1.
apply/e; move/e: h => h; apply/matrixP => i j; rewrite mul_diag_mx mul_mx_diag !mxE.
have := congr1 (fun M : 'M[F]_n => M i j) h; rewrite mul_diag_mx mul_mx_diag !mxE.
set x := \sum_(_ < _) _; move=> hx.
have [->|nx] := eqVneq x 0; first by rewrite mulr0 mul0r.
have : a 0 i ^+ 2 = b 0 j ^+ 2 by apply: (mulIf nx); rewrite hx mulrC.
by move/eqP; rewrite eqr_expn2 // => /eqP ->; rewrite mulrC.
Qed.

Lemma svd_psd n (M U V : 'M[F]_n) (s : 'rV[F]_n) : psd M -> U *m U^T = 1%:M -> V *m V^T = 1%:M ->
  (forall i, 0 <= s 0 i) -> M = U *m diag_mx s *m V^T -> M = U *m diag_mx s *m U^T.
Proof.
move=> hM hU hV s0 hE; have hV' := orth_unit hV.
have [hD hDE] := eighP (proj1 hM); set e := (eigh M).1 in hD hDE; set W := (eigh M).2 in hD hDE.
have e0 : forall i, 0 <= e 0 i.
  move=> i; rewrite -(diag_entry i hD hD hDE); exact: (proj2 hM).
have hW' := orth_unit hD.
clearbody e W.
have sq (P Q : 'M[F]_n) (c : 'rV[F]_n) : Q^T *m Q = 1%:M -> M = P *m diag_mx c *m Q^T ->
  M *m M^T = P *m diag_mx (\row_i c 0 i ^+ 2) *m P^T.
  move=> hQ h; rewrite h !trmx_mul trmxK tr_diag_mx !mulmxA -[_ *m Q^T *m Q]mulmxA hQ mulmx1.
  by rewrite -[P *m _ *m _]mulmxA mulmx_diag; congr (_ *m diag_mx _ *m _).
by rewrite {1}hDE; apply: psd_square_inj => //; rewrite -(sq _ _ _ hV' hE) -(sq _ _ _ hW' hDE).
Qed.

Lemma posdef_eig_psd meth n (M : 'M[F]_n) : psd M ->
  let (psi, U) := posdef_eig eigh svd meth M in
  [/\ U *m U^T = 1%:M, forall i, 0 <= psi 0 i & M = U *m diag_mx psi *m U^T].
Proof.
move=> hM; case: meth; rewrite /posdef_eig.
  have := eighP (proj1 hM); case: (eigh M) => e V [/= hD hE]; split=> //.
    by move=> i; rewrite mxE normr_ge0.
  rewrite {1}hE; congr (_ *m diag_mx _ *m _); apply/rowP => i; rewrite mxE ger0_norm //.
  by rewrite -(diag_entry i hD hD hE); exact: (proj2 hM).
have := svdP M; case: (svd M) => [[s U] V] [hU hV s0 hE]; split=> //.
exact: svd_psd hM hU hV s0 hE.
Qed.

Lemma symmetric_part_sym n (M : 'M[F]_n) : (symmetric_part M)^T = symmetric_part M.
Proof. by rewrite /symmetric_part linearZ /= linearD /= trmxK addrC. Qed.
Lemma symmetric_part_id n (M : 'M[F]_n) : M^T = M -> symmetric_part M = M.
Proof. by move=> h; rewrite /symmetric_part h -mulr2n -scaler_nat scalerA mulVf ?pnatr_eq0 // scale1r. Qed.

Lemma psd_congr n (S M : 'M[F]_n) : S^T = S -> psd M -> psd (S *m M *m S).
Proof.
move=> hS [hM h]; split; first by rewrite !trmx_mul hS hM mulmxA.
by move=> x; have := h (S *m x); rewrite trmx_mul hS !mulmxA.
Qed.

Definition eigen_of clip n (C0 : 'M[F]_n) : 'rV[F]_n * 'M[F]_n :=
  get_eigendecomp eigh clip (set_cov (dense_init F n) C0).

Lemma option1_describes meth clip n (C0 C1 : 'M[F]_n) d :
  psd C0 -> 0 < d -> clip <= 0 -> shift_bounded C0 C1 -> psd (symmetric_part C1) ->
  let q := (option1_iteration eigh svd pow meth (eigen_of clip C0) C1 d).1 in
  (exists Li, describes (C0 + d *: 1%:M) (symmetric_part C1) (q1_L q) (q1_psi q) Li) /\
  forall i, 0 <= q1_psi q 0 i < 1.
Proof.
move=> hC0 d0 hc hb hs /=.
have [hS h1] := invsqrt_spec eighP powP hC0 d0 hc; rewrite -/(eigen_of clip C0) in hS h1.
rewrite /option1_iteration; set S := invsqrt_cov _ _ _ in hS h1 *.
rewrite -/(symmetric_part C1); set M := S *m _ *m S.
have := posdef_eig_psd meth (psd_congr hS hs : psd M).
case: (posdef_eig _ _ _ M) => psi U [hU psi0 hM] /=.
have hb' := shift_sym hb; have lt := singular_lt1 hb' d0 hS h1 hU hU hM.
have hU' := orth_unit hU; set C0d := C0 + _ in h1 *.
have i1 : S *m (C0d *m S) = 1%:M by rewrite mulmxA.
have i2 : C0d *m S *m S = 1%:M := mulmx1C i1.
have i3 : (C0d *m S)^T = C0d *m S.
  rewrite -[LHS]mul1mx -i2 -[_ *m S *m S *m _]mulmxA.
  have -> : S *m (C0d *m S)^T = 1%:M by rewrite -{1}hS -trmx_mul i2 trmx1.
  by rewrite mulmx1.
split; last by move=> i; rewrite psi0 lt.
exists (U^T *m (C0d *m S)); split.
- by rewrite -mulmxA [U *m _]mulmxA hU mul1mx.
- rewrite trmx_mul trmxK i3 -!mulmxA [U *m _]mulmxA hU mul1mx i1 mulmx1.
- done.
- rewrite trmx_mul trmxK i3 -[_ *m U *m _]mulmxA -[_ *m (U *m _) *m _]mulmxA.
  rewrite [U *m _ *m (U^T *m _)]mulmxA -hM /M.
  rewrite !mulmxA i2 mul1mx -[_ *m S *m C0d]mulmxA -[_ *m (S *m C0d) *m S]mulmxA.
  by rewrite -[S *m C0d *m S]mulmxA i1 mulmx1.
Qed.

(** Registering the same factor for several dampings. *)
Lemma option1_iteration_sym meth n (e : 'rV[F]_n * 'M[F]_n) C1 d :
  option1_iteration eigh svd pow meth e (symmetric_part C1) d =
  option1_iteration eigh svd pow meth e C1 d.
Proof.
rewrite /option1_iteration -!/(symmetric_part _).
by rewrite [symmetric_part (symmetric_part _)](symmetric_part_id (symmetric_part_sym C1)).
Qed.
Lemma option1_iteration_leak meth n (e : 'rV[F]_n * 'M[F]_n) C1 d :
  (option1_iteration eigh svd pow meth e C1 d).2 = symmetric_part C1.
Proof. by rewrite /option1_iteration; case: (posdef_eig _ _ _ _). Qed.
Lemma option1_loopE meth n (e : 'rV[F]_n * 'M[F]_n) damp ids C1 :
  option1_loop eigh svd pow meth e damp ids C1 =
  ([seq (id, (option1_iteration eigh svd pow meth e C1 (damp id)).1) | id <- ids],
   if ids is [::] then C1 else symmetric_part C1).
Proof.
elim: ids C1 => [//|id ids IH] C1 /=.
have := option1_iteration_leak meth e C1 (damp id).
case h : (option1_iteration _ _ _ _ _ C1 _) => [q C1'] /= ->; rewrite IH.
congr ((_, _) :: _, _); first by apply: eq_map => i; rewrite option1_iteration_sym.
by case: ids {IH} => [//|_ _]; apply: symmetric_part_id (symmetric_part_sym _).
Qed.
Lemma dict_get_map X (f : nat -> X) ids id : List.In id ids ->
  dict_get [seq (i, f i) | i <- ids] id = Some (f id).
Proof.
elim: ids => [//|i ids IH] /= h.
by case: eqP => [-> //|ne]; apply: IH; case: h.
Qed.
End Opt1.
