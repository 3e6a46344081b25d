From mathcomp Require Import all_ssreflect all_algebra.
From mathcomp.real_closed Require Import complex.
From Verif.Base Require Import Py.
From Verif.Blocks Require Import Model Spec MatProofs PsdProofs.
Set Implicit Arguments.
Unset Strict Implicit.
Unset Printing Implicit Defensive.
Import GRing.Theory Num.Theory Order.TTheory.
Local Open Scope ring_scope.

(** * The spectral theorem: what tf.self_adjoint_eig computes exists *)
Section Spectral.
Variable F : rcfType.

Lemma entB m n (A B : 'M[F]_(m, n)) i j : (A - B) i j = A i j - B i j.
Proof. by rewrite !mxE. Qed.
Lemma entD m n (A B : 'M[F]_(m, n)) i j : (A + B) i j = A i j + B i j.
Proof. by rewrite !mxE. Qed.
Lemma entZ m n a (A : 'M[F]_(m, n)) i j : (a *: A) i j = a * A i j.
Proof. by rewrite !mxE. Qed.

Lemma dot_sq n (a : 'rV[F]_n) : (a *m a^T) 0 0 = \sum_i (a 0 i) ^+ 2.
Proof. by rewrite mxE; apply: eq_bigr => i _; rewrite mxE expr2. Qed.
Lemma dot_ge0 n (a : 'rV[F]_n) : 0 <= (a *m a^T) 0 0.
Proof. by rewrite dot_sq; apply: sumr_ge0 => i _; apply: sqr_ge0. Qed.
Lemma dot_gt0 n (a : 'rV[F]_n) : a != 0 -> 0 < (a *m a^T) 0 0.
Proof.
move=> h; rewrite dot_sq.
have := @sumsq_gt0 F n a^T; rewrite trmx_eq0 h => /(_ isT).
by congr (_ < _); apply: eq_bigr => i _; rewrite mxE.
Qed.

Lemma real_eigenvector p (M : 'M[F]_p.+1) : M^T = M ->
  exists (al : F) (u : 'rV[F]_p.+1), u != 0 /\ u *m M = al *: u.
Proof.
move=> hs; pose MC := map_mx (@real_complex F) M.
have sz : size (char_poly MC) != 1%N by rewrite size_char_poly.
have [la hla] : exists la, root (char_poly MC) la.
  by apply: (closed_rootP _ sz); exact: complex_acf_axiom.
move: hla; rewrite -eigenvalue_root_char => /eigenvalueP [v hv vnz].
pose a : 'rV[F]_p.+1 := map_mx (@complex.Re F) v; pose b : 'rV[F]_p.+1 := map_mx (@complex.Im F) v.
have ha : a *m M = complex.Re la *: a - complex.Im la *: b.
  apply/rowP => j; have := congr1 (fun w : 'rV__ => complex.Re (w 0 j)) hv.
  rewrite !mxE raddf_sum /= => h.
  transitivity (complex.Re (la * v 0 j)); last by case: (la) (v 0 j) => x y [].
  by rewrite -h; apply: eq_bigr => k _; rewrite !mxE; case: (v 0 k) => x y /=; rewrite mulr0 subr0.
have hb : b *m M = complex.Re la *: b + complex.Im la *: a.
  apply/rowP => j; have := congr1 (fun w : 'rV__ => complex.Im (w 0 j)) hv.
  rewrite !mxE raddf_sum /= => h.
  transitivity (complex.Im (la * v 0 j)); last by case: (la) (v 0 j) => x y [].
  by rewrite -h; apply: eq_bigr => k _; rewrite !mxE; case: (v 0 k) => x y /=; rewrite mulr0 add0r.
move: (complex.Re la) (complex.Im la) ha hb => al be ha hb.
have nz : (a != 0) || (b != 0).
  rewrite -negb_and; apply: contra vnz => /andP[/eqP za /eqP zb].
  apply/eqP/rowP => j; have := congr1 (fun w : 'rV__ => w 0 j) za; have := congr1 (fun w : 'rV__ => w 0 j) zb.
  by rewrite !mxE; case: (v 0 j) => x y /= -> ->.
have pos : 0 < (a *m a^T) 0 0 + (b *m b^T) 0 0.
  case/orP: nz => h; [apply: ltr_paddr | apply: ltr_paddl]; rewrite ?dot_ge0 //; exact: dot_gt0.
have sw : (a *m M *m b^T) 0 0 = (b *m M *m a^T) 0 0.
  have -> : a *m M *m b^T = (b *m M *m a^T)^T by rewrite !trmx_mul trmxK hs mulmxA.
  by rewrite mxE.
have ab : (a *m b^T) 0 0 = (b *m a^T) 0 0.
  have -> : a *m b^T = (b *m a^T)^T by rewrite trmx_mul trmxK.
  by rewrite mxE.
have be0 : be = 0.
  move: sw; rewrite ha hb mulmxBl mulmxDl -!scalemxAl.
  have e1 (X Y : 'M[F]_1) : (X - Y) 0 0 = X 0 0 - Y 0 0 by rewrite !mxE.
  have e2 (X Y : 'M[F]_1) : (X + Y) 0 0 = X 0 0 + Y 0 0 by rewrite !mxE.
  have e3 x (X : 'M[F]_1) : (x *: X) 0 0 = x * X 0 0 by rewrite !mxE.
  rewrite e1 e2 !e3 ab => /addrI /eqP; rewrite eq_sym -subr_eq0 opprK -mulrDr mulf_eq0.
  by rewrite (gt_eqF pos) orbF => /eqP.
rewrite be0 !scale0r subr0 in ha; rewrite be0 !scale0r addr0 in hb.
by case/orP: nz => h; [exists al, a | exists al, b].
Qed.

(** Householder reflection exchanging a unit vector with the first basis vector. *)
Lemma householder p (u : 'rV[F]_(1 + p)) : (u *m u^T) 0 0 = 1 ->
  exists H : 'M[F]_(1 + p),
    [/\ H^T = H, H *m H = 1%:M & delta_mx 0 0 *m H = u].
Proof.
move=> hu; pose e : 'rV[F]_(1 + p) := delta_mx 0 0.
have [->|ne] := eqVneq u e.
  by exists 1%:M; rewrite trmx1 !mulmx1.
have [w hwd] : exists w, w = u - e by exists (u - e).
have wnz : w != 0 by rewrite hwd subr_eq0.
have := dot_gt0 wnz; set c := (w *m w^T) 0 0 => c0.
have hw : w *m w^T = c%:M by rewrite [LHS]mx11_scalar.
have hcw : c = (1 - u 0 0) *+ 2.
  rewrite /c hwd linearB /= mulmxBl !mulmxBr.
  have e1 : (u *m e^T) 0 0 = u 0 0 by rewrite trmx_delta -colE mxE.
  have e2 : (e *m u^T) 0 0 = u 0 0 by rewrite -rowE !mxE.
  have e3 : (e *m e^T) 0 0 = 1 by rewrite trmx_delta mul_delta_mx mxE eqxx.
  by rewrite !entB hu e1 e2 e3 opprB mulr2n.
have ew : (e *m w^T) 0 0 = u 0 0 - 1.
  by rewrite hwd -rowE !mxE !eqxx.
have hZ : w^T *m w *m (w^T *m w) = c *: (w^T *m w).
  by rewrite -mulmxA [w *m (_ *m _)]mulmxA hw mul_scalar_mx -scalemxAr.
have cnz : c != 0 by rewrite gt_eqF.
exists (1%:M - (2%:R / c) *: (w^T *m w)); split.
- by rewrite linearB linearZ /= trmx1 trmx_mul trmxK.
- rewrite mulmxBl mul1mx mulmxBr mulmx1 -scalemxAl -scalemxAr hZ !scalerA.
  have -> : 2%:R / c * (2%:R / c) * c = 2%:R / c + 2%:R / c.
    by rewrite mulrA mulfVK // mulr_natr mulr2n.
  by rewrite scalerDl opprB addrK subrK.
- have ht : 2%:R / c * (u 0 0 - 1) = -1.
    have -> : u 0 0 - 1 = - (c / 2%:R) by rewrite hcw -mulr_natr mulfK ?pnatr_eq0 // opprB.
    by rewrite mulrN mulrA mulfVK // divff ?pnatr_eq0.
  rewrite -/e mulmxBr mulmx1 -scalemxAr mulmxA [e *m w^T]mx11_scalar ew mul_scalar_mx scalerA ht.
  by rewrite scaleN1r opprK hwd addrC subrK.
Qed.

Lemma block_diag_row k p (d : 'rV[F]_k) (e : 'rV[F]_p) :
  diag_mx (row_mx d e) = block_mx (diag_mx d) 0 0 (diag_mx e).
Proof.
apply/matrixP => i j; rewrite -(splitK i) -(splitK j); case: split => i'; case: split => j' /=;
  rewrite ?block_mxEul ?block_mxEur ?block_mxEdl ?block_mxEdr [LHS]mxE ?row_mxEl ?row_mxEr ![RHS]mxE.
- by rewrite eq_lshift.
- by rewrite eq_lrshift mulr0n.
- by rewrite eq_rlshift mulr0n.
- by rewrite eq_rshift.
Qed.

Lemma spectral n (M : 'M[F]_n) : M^T = M ->
  exists dV : 'rV[F]_n * 'M[F]_n, diagonalises dV.1 dV.2 M.
Proof.
elim: n M => [|p IH] M hs.
  by exists (0, 1%:M); split=> /=; rewrite ?trmx1 ?mulmx1 // !flatmx0.
have [al [u0 [unz hu0]]] := real_eigenvector hs.
rewrite -[p.+1]/(1 + p)%N in M hs u0 unz hu0 *.
pose u := (Num.sqrt ((u0 *m u0^T) 0 0))^-1 *: u0.
have pos := dot_gt0 unz.
have hu : (u *m u^T) 0 0 = 1.
  rewrite /u linearZ /= -scalemxAl -scalemxAr scalerA entZ -invfM -expr2 sqr_sqrtr ?ltW //.
  by rewrite mulVf ?gt_eqF.
have huM : u *m M = al *: u by rewrite /u -scalemxAl hu0 !scalerA mulrC.
have [H [hH hHH heH]] := householder hu.
have huH : u *m H = delta_mx 0 0 by rewrite -heH -mulmxA hHH mulmx1.
have [N hNd] : exists N, N = H *m M *m H by exists (H *m M *m H).
have hN : N^T = N by rewrite hNd !trmx_mul hH hs mulmxA.
have hrow : delta_mx 0 0 *m N = al *: (delta_mx 0 0 : 'rV[F]_(1 + p)).
  by rewrite hNd !mulmxA heH huM -scalemxAl huH.
have hN' : N = block_mx al%:M 0 0 (drsubmx N).
  have hur : ursubmx N = 0 /\ ulsubmx N = al%:M.
    have h j : N 0 j = al * (j == 0)%:R.
      have := congr1 (fun w : 'rV__ => w 0 j) hrow; rewrite -rowE !mxE => ->.
      by rewrite eqxx.
    split; apply/matrixP => i j; rewrite !mxE ord1.
    + have -> : lshift p (0 : 'I_1) = 0 by apply: val_inj.
      by rewrite h mulr0.
    + have -> : lshift p (0 : 'I_1) = 0 by apply: val_inj.
      by rewrite h !ord1 !eqxx mulr1.
  case: hur => hur hul.
  have hdl : dlsubmx N = 0 by rewrite -[dlsubmx N]trmxK trmx_dlsub hN hur trmx0.
  by rewrite -[LHS]submxK hur hul hdl.
have hD : (drsubmx N)^T = drsubmx N by rewrite trmx_drsub hN.
have [[d' V'] [/= h1 h2]] := IH _ hD.
pose W := block_mx (1%:M : 'M[F]_1) 0 0 V'.
have hW : W *m W^T = 1%:M.
  rewrite /W tr_block_mx mulmx_block !trmx0 !mul0mx !mulmx0 !addr0 !add0r h1 trmx1 mulmx1.
  by rewrite -scalar_mx_block.
exists (row_mx al%:M d', H *m W); split => /=.
  by rewrite trmx_mul hH -mulmxA [W *m _]mulmxA hW mul1mx.
have e : diag_mx (al%:M : 'rV[F]_1) = al%:M.
  by apply/matrixP => i j; rewrite !mxE !ord1 !eqxx !mulr1n.
have hWd : W *m diag_mx (row_mx al%:M d') *m W^T = N.
  rewrite block_diag_row e /W tr_block_mx !mulmx_block !trmx0 !mul0mx !mulmx0 !addr0 !add0r.
  rewrite trmx1 mul1mx mulmx1 -h2. by rewrite !mul0mx -hN'.
rewrite trmx_mul hH !mulmxA -[H *m W *m _]mulmxA -[H *m _ *m W^T]mulmxA hWd hNd !mulmxA hHH.
by rewrite mul1mx -mulmxA hHH mulmx1.
Qed.

(** A function meeting the contract of tf.self_adjoint_eig. *)
Lemma eigh_exists n (M : 'M[F]_n) :
  exists dV : 'rV[F]_n * 'M[F]_n,
    (M^T == M) ==> (dV.2 *m dV.2^T == 1%:M) && (M == dV.2 *m diag_mx dV.1 *m dV.2^T).
Proof.
have [h|_] := eqVneq; last by exists (0, 0).
by have [dV [/eqP h1 /eqP h2]] := spectral h; exists dV; rewrite h1 h2.
Qed.
Definition an_eigh n (M : 'M[F]_n) : 'rV[F]_n * 'M[F]_n := xchoose (eigh_exists M).
Lemma an_eigh_contract : eigh_contract an_eigh.
Proof.
move=> n M h; have := xchooseP (eigh_exists M); rewrite -/(an_eigh M) => /implyP /(_ (introT eqP h)).
by case/andP => /eqP h1 /eqP h2.
Qed.

(** A function meeting the laws of powers. *)
Definition a_pow (x e : F) : F :=
  if e == 1 then x else if e == -1 then x^-1
  else if e == 2^-1 then Num.sqrt x else if e == - 2^-1 then (Num.sqrt x)^-1 else 1.
Lemma a_pow_laws : power_laws a_pow.
Proof.
have n1 : (-1 == 1 :> F) = false by rewrite lt_eqF // (lt_trans (ltrN10 _)) ?ltr01.
have h0 : 0 < 2^-1 :> F by rewrite invr_gt0 ltr0n.
have h1 : 2^-1 < 1 :> F by rewrite invf_lt1 ?ltr0n // ltr1n.
have e1 : (2^-1 == 1 :> F) = false by rewrite lt_eqF.
have e2 : (2^-1 == -1 :> F) = false by rewrite gt_eqF // (lt_trans (ltrN10 _)).
have e3 : (- 2^-1 == 1 :> F) = false by rewrite lt_eqF // (lt_trans _ ltr01) // oppr_lt0.
have e4 : (- 2^-1 == -1 :> F) = false by rewrite eqr_opp e1.
have e5 : (- 2^-1 == 2^-1 :> F) = false by rewrite lt_eqF // (lt_trans _ h0) // oppr_lt0.
split; rewrite /a_pow.
- by move=> x _; rewrite eqxx.
- by move=> x _; rewrite n1 eqxx.
- by move=> x _; rewrite e1 e2 eqxx.
- by move=> x _; rewrite e3 e4 e5 eqxx.
- move=> x y e x0 y0; do 4 (case: ifP => _; first by rewrite ?invfM ?sqrtrM ?invfM // ltW).
  by rewrite mulr1.
- move=> x e x0; do 4 (case: ifP => _; first by rewrite ?invr_gt0 ?sqrtr_gt0).
  exact: ltr01.
Qed.

(** * Uniqueness of matrix powers *)
Variable pow : F -> F -> F.
Lemma orth_unit n (V : 'M[F]_n) : V *m V^T = 1%:M -> V^T *m V = 1%:M.
Proof. exact: mulmx1C. Qed.

Lemma is_matpower_unique n (M : 'M[F]_n) e P Q :
  is_matpower pow M e P -> is_matpower pow M e Q -> P = Q.
Proof.
move=> [V [d [hV pd hM ->]]] [W [f [hW pf hM' ->]]].
have hV' := orth_unit hV; have hW' := orth_unit hW.
pose U := V^T *m W.
have hU : diag_mx d *m U = U *m diag_mx f.
  have : V^T *m M *m W = V^T *m M *m W by [].
  rewrite {1}hM {1}hM' /U !mulmxA hV' mul1mx -[_ *m W]mulmxA.
  by rewrite -[_ *m W^T *m W]mulmxA hW' mulmx1 -!mulmxA.
have hU2 : diag_mx (\row_i pow (d 0 i) e) *m U = U *m diag_mx (\row_i pow (f 0 i) e).
  apply/matrixP => i j; rewrite mul_diag_mx mul_mx_diag !mxE.
  have := congr1 (fun A : 'M__ => A i j) hU; rewrite mul_diag_mx mul_mx_diag !mxE => h.
  have [->|nz] := eqVneq (\sum_k V^T i k * W k j) 0; first by rewrite mulr0 mul0r.
  by rewrite mulrC; congr (_ * pow _ e); apply: (mulfI nz); rewrite -h mulrC.
have hVU : V *m U = W by rewrite /U mulmxA hV mul1mx.
rewrite -[W in RHS]hVU -[V *m U *m _]mulmxA -hU2 mulmxA -[RHS]mulmxA; congr (_ *m _).
by rewrite hVU /U -mulmxA hW mulmx1.
Qed.
End Spectral.
