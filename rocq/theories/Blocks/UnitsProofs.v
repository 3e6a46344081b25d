(** Changing the unit of the loss: proofs for the block part of C120. *)
From mathcomp Require Import all_ssreflect all_algebra.
From Verif.Base Require Import Py.
From Verif.Blocks Require Import Model Spec MatProofs PsdProofs EigProofs FactorProofs ServeProofs BlockProofs
  StatProofs SuaProofs EndProofs.
Set Implicit Arguments.
Unset Strict Implicit.
Unset Printing Implicit Defensive.
Import GRing.Theory Num.Theory Order.TTheory.
Local Open Scope ring_scope.

Section Stats.
Variable F : rcfType.
Variable q : F.
Let k := q ^+ 2.

Lemma total_scale R S T m n (c c' : nat -> nat -> nat -> 'M[F]_(m, n)) a :
  (forall r s t, c' r s t = a *: c r s t) ->
  compute_total_new_cov R S T c' = a *: compute_total_new_cov R S T c.
Proof.
move=> h; rewrite /compute_total_new_cov [RHS]scalerA [a * _]mulrC -[RHS]scalerA; congr (_ *: _).
rewrite scaler_sumr; apply: eq_bigr => r _.
rewrite [RHS]scalerA [a * _]mulrC -[RHS]scalerA; congr (_ *: _).
by rewrite scaler_sumr; apply: eq_bigr => s _; rewrite scaler_sumr; apply: eq_bigr => t _.
Qed.

Lemma history_scale X Y m n normalize (stat : X -> 'M[F]_(m, n)) (stat' : Y -> 'M[F]_(m, n))
    (h : X -> Y) R S T updates a :
  (forall x, stat' (h x) = a *: stat x) ->
  covariance_after normalize stat' R S T [seq (fun r s t => h (u.1 r s t), u.2) | u <- updates] =
  a *: covariance_after normalize stat R S T updates.
Proof.
move=> hs; rewrite /covariance_after.
pose f (b : mav F m n) (u : (nat -> nat -> nat -> X) * (F * F)) := mav_add b
  (compute_total_new_cov R S T (fun r s t => stat (u.1 r s t))) u.2.1 u.2.2.
pose f' (b : mav F m n) (u : (nat -> nat -> nat -> Y) * (F * F)) := mav_add b
  (compute_total_new_cov R S T (fun r s t => stat' (u.1 r s t))) u.2.1 u.2.2.
rewrite -/f -/f'.
have main (b b' : mav F m n) : m_var b' = a *: m_var b -> m_weight b' = m_weight b ->
  m_var (foldl f' b' [seq (fun r s t => h (u.1 r s t), u.2) | u <- updates]) = a *: m_var (foldl f b updates) /\
  m_weight (foldl f' b' [seq (fun r s t => h (u.1 r s t), u.2) | u <- updates]) = m_weight (foldl f b updates).
  elim: updates b b' => [//|u us IH] b b' h1 h2; apply: IH; rewrite /f /f' /mav_add /=.
  - rewrite h1 (total_scale R S T (fun r s t => hs (u.1 r s t))).
    by rewrite scalerDr !scalerA [u.2.1 * a]mulrC [u.2.2 * a]mulrC.
  - by rewrite h2.
have [|//|e1 e2] := main (mav_init F m n) (mav_init F m n); first by rewrite scaler0.
by rewrite /mav_value e1 e2; case: normalize; rewrite // !scalerA mulrC.
Qed.

Lemma cov_scale n (rows : seq 'rV[F]_n) : compute_cov [seq q *: x | x <- rows] = k *: compute_cov rows.
Proof.
rewrite !compute_covE /avg size_map big_map [RHS]scalerA [k * _]mulrC -[RHS]scalerA; congr (_ *: _).
rewrite scaler_sumr.
by apply: eq_bigr => x _; rewrite [(_ *: _)^T]linearZ /= -scalemxAl -scalemxAr scalerA.
Qed.
Lemma convin_scale n (ex : seq (seq 'rV[F]_n)) :
  convin_new_cov [seq [seq q *: x | x <- e] | e <- ex] = k *: convin_new_cov ex.
Proof. by rewrite /convin_new_cov -map_flatten cov_scale. Qed.
Lemma square_scale n (x : 'rV[F]_n) : square_row (q *: x) = k *: square_row x.
Proof. by apply/matrixP => i j; rewrite !mxE exprMn. Qed.
Lemma fcdiag_scale m n (ex : seq ('rV[F]_m * 'rV[F]_n)) :
  fcdiag_new_cov [seq (e.1, q *: e.2) | e <- ex] = k *: fcdiag_new_cov ex.
Proof.
rewrite /fcdiag_new_cov size_map big_map [RHS]scalerA [k * _]mulrC -[RHS]scalerA; congr (_ *: _).
rewrite scaler_sumr.
by apply: eq_bigr => e _; rewrite square_scale scalemxAr.
Qed.
Lemma fcdiagb_scale m n (ex : seq ('rV[F]_m * 'rV[F]_n)) :
  fcdiag_new_cov_bias [seq (e.1, q *: e.2) | e <- ex] = k *: fcdiag_new_cov_bias ex.
Proof. by rewrite /fcdiag_new_cov_bias -fcdiag_scale -!map_comp. Qed.
Lemma case_scale m n (l : seq ('rV[F]_m * 'rV[F]_n)) :
  convdiag_case_gradient [seq (e.1, q *: e.2) | e <- l] = q *: convdiag_case_gradient l.
Proof.
rewrite /convdiag_case_gradient big_map scaler_sumr; apply: eq_bigr => e _.
by rewrite scalemxAr.
Qed.
Lemma convdiag_scale m n (ex : seq (seq ('rV[F]_m * 'rV[F]_n))) :
  convdiag_new_cov [seq [seq (l.1, q *: l.2) | l <- e] | e <- ex] = k *: convdiag_new_cov ex.
Proof.
rewrite /convdiag_new_cov size_map big_map [RHS]scalerA [k * _]mulrC -[RHS]scalerA; congr (_ *: _).
rewrite scaler_sumr.
apply: eq_bigr => e _; apply/matrixP => i j; rewrite case_scale.
by rewrite !mxE exprMn.
Qed.
Lemma convdiagb_scale m n (ex : seq (seq ('rV[F]_m * 'rV[F]_n))) :
  convdiag_new_cov_bias [seq [seq (l.1, q *: l.2) | l <- e] | e <- ex] = k *: convdiag_new_cov_bias ex.
Proof.
rewrite /convdiag_new_cov_bias -convdiag_scale -!map_comp; congr convdiag_new_cov.
by apply: eq_map => e /=; rewrite -!map_comp.
Qed.
Lemma naivefull_scale n (g : 'rV[F]_n) b : naivefull_new_cov (q *: g) b = k *: naivefull_new_cov g b.
Proof.
rewrite /naivefull_new_cov [(_ *: _)^T]linearZ /= -scalemxAl -scalemxAr !scalerA; congr (_ *: _).
by rewrite /k expr2 [RHS]mulrC ?mulrA.
Qed.
Lemma naivediag_scale n (g : 'rV[F]_n) b : naivediag_new_cov (q *: g) b = k *: naivediag_new_cov g b.
Proof. by rewrite /naivediag_new_cov square_scale !scalerA mulrC. Qed.
End Stats.

Section Damping.
Variable F : rcfType.
Variable pow : F -> F -> F.
Variable k : F.
Hypothesis k0 : 0 < k.

Lemma normalised_scale power d norm : normalised pow power (k * d) norm = k * normalised pow power d norm.
Proof. by case: norm => //= r; case: (power == 0) => //; rewrite mulrA. Qed.

Lemma setup_scale power m n (A : linop F m) (G G' : linop F n) d norm a g :
  lo_dense G' = k *: lo_dense G ->
  psd (lo_dense A) -> psd (lo_dense G) -> 0 < normalised pow power d norm ->
  \tr (lo_dense A) <> 0 -> \tr (lo_dense G) <> 0 ->
  setup_damping pow PiTracenorm power A G d norm = Ok (a, g) ->
  setup_damping pow PiTracenorm power A G' (k * d) norm = Ok (a, k * g).
Proof.
move=> eG hA hG d0 tA tG.
have dn x : match norm with Some r => normalize_damping pow power x r | None => x end =
   normalised pow power x norm.
  by case: norm {d0} => //= r; rewrite /normalize_damping; case: eqP.
rewrite /setup_damping !dn normalised_scale /compute_pi_adjusted_damping /compute_pi_tracenorm.
set s := normalised _ _ _ _ in d0 *.
rewrite !lo_traceE eG mxtraceZ.
have tG0 : 0 < \tr (lo_dense G) by rewrite lt_neqAle eq_sym (introN eqP tG) psd_trace.
have tA0 : 0 < \tr (lo_dense A) by rewrite lt_neqAle eq_sym (introN eqP tA) psd_trace.
have m0 : (0 < m)%N by case: m A hA tA {tA0} eG => // A hA; rewrite /mxtrace big_ord0.
have n0 : (0 < n)%N by case: n G G' hG tG {tG0 tA0} eG => // G G' hG; rewrite /mxtrace big_ord0.
have L0 : 0 < \tr (lo_dense A) * n%:R by rewrite mulr_gt0 ?ltr0n.
have R0 : 0 < \tr (lo_dense G) * m%:R by rewrite mulr_gt0 ?ltr0n.
rewrite -![k * _ * m%:R]mulrA; set L := \tr (lo_dense A) * n%:R in L0 *; set R := \tr (lo_dense G) * m%:R in R0 *.
have kR0 : 0 < k * R by rewrite mulr_gt0.
rewrite (gt_eqF (mulr_gt0 L0 R0)) (gt_eqF (mulr_gt0 L0 kR0)) R0 kR0 => -[<- <-]; congr (Ok (_, _)).
- have -> : L / (k * R) = k^-1 * (L / R) by rewrite invfM mulrCA.
  rewrite !sqrtrM ?ltW ?invr_gt0 // sqrtrV ?ltW // mulrACA -[RHS]mul1r; congr (_ * _).
  by rewrite divff // gt_eqF ?sqrtr_gt0.
- have -> : L / (k * R) = k^-1 * (L / R) by rewrite invfM mulrCA.
  rewrite !sqrtrM ?ltW ?invr_gt0 // sqrtrV ?ltW // invfM invrK mulrACA -expr2 sqr_sqrtr ?ltW //.
Qed.
End Damping.

Section Power.
Variable F : rcfType.
Variable pow : F -> F -> F.
Hypothesis powP : power_laws pow.
Variable k : F.
Hypothesis k0 : 0 < k.

Lemma matpower_one n (M P : 'M[F]_n) : is_matpower pow M 1 P -> P = M.
Proof.
move=> [V [d [_ d0 -> ->]]]; congr (_ *m diag_mx _ *m _).
by apply/matrixP => i j; rewrite ord1 mxE (pow_one powP).
Qed.
Lemma matpower_inv n (M P : 'M[F]_n) : is_matpower pow M (-1) P -> M *m P = 1%:M.
Proof.
move=> [V [d [hV d0 -> ->]]].
have hV' : V^T *m V = 1%:M by rewrite mulmx1C.
rewrite !mulmxA -[_ *m V^T *m V]mulmxA hV' mulmx1 -[V *m _ *m _]mulmxA.
rewrite mulmx_diag (_ : (\row__ _) = const_mx 1) ?diag_const_mx ?mulmx1 //.
by apply/matrixP => i j; rewrite !mxE (pow_minus_one powP) // divff // gt_eqF.
Qed.
Lemma matpower_inv_scale n (M P P' : 'M[F]_n) :
  is_matpower pow M (-1) P -> is_matpower pow (k *: M) (-1) P' -> P = k *: P'.
Proof.
move=> /matpower_inv h /matpower_inv h'; apply: (@etrans _ _ (invmx M)).
- exact: invmx_unique.
- by symmetry; apply: invmx_unique; rewrite -scalemxAr scalemxAl.
Qed.
End Power.

Section Blocks.
Variable F : rcfType.
Variable eigh : forall n, 'M[F]_n -> 'rV[F]_n * 'M[F]_n.
Variable pow : F -> F -> F.
Hypothesis eighP : eigh_contract eigh.
Hypothesis powP : power_laws pow.
Variables (th : nat) (clip : F) (meth : posdef_inv_method).
Hypothesis clip0 : clip <= 0.
Notation up_to_date := (up_to_date eigh pow th clip meth).
Variable k : F.
Hypothesis k0 : 0 < k.

Variables (m n : nat) (b : bool).

Section Kron.
Variables (regsA regsG : seq (registration F)) (dampA dampG dampA' dampG' : nat -> F).
Variables (A : 'M[F]_(rows m b)) (G : 'M[F]_n).
Variables (sA sA' : dense F (rows m b)) (sG sG' : dense F n).
Variables (ia ig : nat) (renorm : F).
Hypothesis upA : up_to_date regsA dampA A sA.
Hypothesis upG : up_to_date regsG dampG G sG.
Hypothesis upA' : up_to_date regsA dampA' A sA'.
Hypothesis upG' : up_to_date regsG dampG' (k *: G) sG'.
Hypothesis hA : psd A.
Hypothesis hG : psd G.
Hypothesis pA : 0 < dampA ia.
Hypothesis pG : 0 < dampG ig.
Hypothesis pr : 0 < renorm.
Hypothesis eA : dampA' ia = dampA ia.
Hypothesis eG : dampG' ig = k * dampG ig.
Notation left := (fun e => get_matpower sA dampA e ia).
Notation right := (fun e => get_matpower sG dampG e ig).
Notation left' := (fun e => get_matpower sA' dampA' e ia).
Notation right' := (fun e => get_matpower sG' dampG' e ig).

Lemma kron_units_power e (v u : params F m n b) : has_power regsA regsG ia ig e ->
  exists w w' M M' K, [/\
    kron_multiply_matpower pow left right renorm v e = Ok w,
    kron_multiply_matpower pow left' right' renorm u e = Ok w',
    is_matpower pow K e M, is_matpower pow (k *: K) e M'
  & tensors_to_column w = M *m tensors_to_column v /\
    tensors_to_column w' = M' *m tensors_to_column u].
Proof.
move=> he.
have hG' : psd (k *: G) by apply: psdZ => //; exact: ltW.
have pA' : 0 < dampA' ia by rewrite eA.
have pG' : 0 < dampG' ig by rewrite eG mulr_gt0.
have [w [e1 h1]] := kron_power eighP powP clip0 upA upG hA hG pA pG pr v he.
have [w' [e2 h2]] := kron_power eighP powP clip0 upA' upG' hA hG' pA' pG' pr u he.
have [M [hM cM]] := h1 _ _ _ (column_is_column v) (column_is_column w) (is_kron_model _ _).
have [M' [hM' cM']] := h2 _ _ _ (column_is_column u) (column_is_column w') (is_kron_model _ _).
exists w, w', M, M'; eexists; split; [exact: e1|exact: e2|exact: hM| |by split].
move: hM'; rewrite eA eG -scalerA -scalerDr kronZr scalerA mulrC -scalerA => hM'; exact: hM'.
Qed.

Lemma kron_units_inverse (v u : params F m n b) :
  List.In (RegMatpower (-1) ia) regsA -> List.In (RegMatpower (-1) ig) regsG ->
  tensors_to_column u = k *: tensors_to_column v ->
  exists w, kron_multiply_matpower pow left right renorm v (-1) = Ok w /\
            kron_multiply_matpower pow left' right' renorm u (-1) = Ok w.
Proof.
move=> r1 r2 hu.
have [w [w' [M [M' [K [e1 e2 h1 h2 [c1 c2]]]]]]] := kron_units_power v u (or_intror (conj r1 r2)).
exists w; split => //; rewrite e2; congr Ok; apply: column_inj.
by rewrite c1 c2 hu (matpower_inv_scale powP h1 h2) -scalemxAr scalemxAl.
Qed.

Lemma kron_units_forward (v : params F m n b) :
  exists w w', [/\ kron_multiply_matpower pow left right renorm v 1 = Ok w,
    kron_multiply_matpower pow left' right' renorm v 1 = Ok w'
  & tensors_to_column w' = k *: tensors_to_column w].
Proof.
have [w [w' [M [M' [K [e1 e2 h1 h2 [c1 c2]]]]]]] := kron_units_power v v (or_introl erefl).
exists w, w'; split => //.
by rewrite c1 c2 (matpower_one powP h1) (matpower_one powP h2) scalemxAl.
Qed.
End Kron.

Section Full.
Variables (regs : seq (registration F)) (damp damp' : nat -> F) (C : 'M[F]_(rows m b * n)).
Variables (s s' : dense F (rows m b * n)) (id : nat).
Hypothesis up : up_to_date regs damp C s.
Hypothesis up' : up_to_date regs damp' (k *: C) s'.
Hypothesis hC : psd C.
Hypothesis pd : 0 < damp id.
Hypothesis ed : damp' id = k * damp id.

Lemma full_units_inverse (v u : params F m n b) : List.In (RegMatpower (-1) id) regs ->
  tensors_to_column u = k *: tensors_to_column v ->
  exists w, full_multiply (get_matpower s damp (-1) id) v false = Ok w /\
            full_multiply (get_matpower s' damp' (-1) id) u false = Ok w.
Proof.
move=> r hu.
have hC' : psd (k *: C) by apply: psdZ => //; exact: ltW.
have pd' : 0 < damp' id by rewrite ed mulr_gt0.
have [w [e1 h1]] := full_power eighP powP clip0 up hC pd v (or_intror r).
have [w' [e2 h2]] := full_power eighP powP clip0 up' hC' pd' u (or_intror r).
have [P [hP cP]] := h1 _ _ (column_is_column v) (column_is_column w).
have [P' [hP' cP']] := h2 _ _ (column_is_column u) (column_is_column w').
move: hP'; rewrite ed -scalerA -scalerDr => hP'.
exists w; split => //; rewrite e2; congr Ok; apply: column_inj.
by rewrite cP cP' hu (matpower_inv_scale powP hP hP') -scalemxAr scalemxAl.
Qed.
End Full.

Lemma diag_units_inverse (d : 'rV[F]_(rows m b * n)) damping (v u : params F m n b) t :
  (forall i, 0 < d 0 i + damping) -> tensors_to_column u = k *: tensors_to_column v ->
  diagonal_multiply (diag_get_matpower pow (k *: d) (-1) (k * damping)) u t =
  diagonal_multiply (diag_get_matpower pow d (-1) damping) v t.
Proof.
move=> h hu; rewrite /diagonal_multiply /full_multiply_matrix; congr column_to_tensors.
rewrite hu; apply/matrixP => i j; rewrite !mxE -mulrDr.
rewrite (pow_mul powP) // (pow_minus_one powP) //.
by rewrite mulrACA [k^-1 * _]mulrC divff ?gt_eqF // mul1r.
Qed.
End Blocks.

Section Scalar.
Variable F : rcfType.
Variable eigh : forall n, 'M[F]_n -> 'rV[F]_n * 'M[F]_n.
Variable pow : F -> F -> F.
Hypothesis eighP : eigh_contract eigh.
Hypothesis powP : power_laws pow.
Variables (th : nat) (clip : F) (meth : posdef_inv_method).
Hypothesis clip0 : clip <= 0.
Notation up_to_date := (up_to_date eigh pow th clip meth).

Lemma scalar_block (x y a g : F) (sA sG : dense F 1) (v : params F 1 1 false) :
  0 <= x -> 0 <= y -> 0 < a -> 0 < g ->
  up_to_date [:: RegMatpower (-1) 0] (fun=> a) (x *: 1%:M) sA ->
  up_to_date [:: RegMatpower (-1) 0] (fun=> g) (y *: 1%:M) sG ->
  exists w : params F 1 1 false,
    kron_multiply_matpower pow (m := 1) (has_bias := false) (fun e => get_matpower sA (fun=> a) e 0)
      (fun e => get_matpower sG (fun=> g) e 0) 1 v (-1) = Ok w /\
    ((x + a) * (y + g)) *: (w : 'M[F]_1) = v.
Proof.
move=> x0 y0 a0 g0 uA uG.
have he : has_power [:: RegMatpower (-1) 0] [:: RegMatpower (-1) 0] 0 0 (-1 : F).
  by right; split; left.
have [w [e h]] := kron_power (m := 1) (b := false) eighP powP clip0 uA uG (psd_scalar _ x0) (psd_scalar _ y0)
  a0 g0 ltr01 v he.
exists w; split => //.
have [M [hM cM]] := h _ _ _ (column_is_column v) (column_is_column w) (is_kron_model _ _).
have hI := matpower_inv powP hM.
move: hI; rewrite scale1r -!scalerDl kronZl kronZr kron1 scalerA => hI.
apply: (@column_inj F 1 1 false); rewrite /= vecZ.
rewrite -[vec v]mul1mx -hI -mulmxA.
by rewrite -[M *m vec v]cM -scalemxAl mul1mx.
Qed.

Lemma four : (4%:R : F) = 2%:R ^+ 2. Proof. by rewrite -natrX. Qed.
Lemma sqrt4 : Num.sqrt (4%:R : F) = 2%:R.
Proof. by rewrite four sqrtr_sqr ger0_norm // ler0n. Qed.

Lemma no_common (p p' q : F) (v : 'M[F]_1) (w w' : 'M[F]_1) : v <> 0 ->
  p' <> q * p -> p *: w = v -> p' *: w' = q *: v -> w <> w'.
Proof.
move=> v0 hp h h' e; apply: hp; move: h'; rewrite -e -h scalerA.
have w0 : w <> 0 by move=> e0; apply: v0; rewrite -h e0 scaler0.
move/(congr1 (fun M : 'M[F]_1 => M 0 0)); rewrite !mxE; apply: mulIf.
by apply/eqP => z; apply: w0; apply/matrixP => i j; rewrite !ord1 z mxE.
Qed.
End Scalar.
