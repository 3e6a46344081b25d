(** Data on which the time series approximations do not do what they should. *)
From mathcomp Require Import all_ssreflect all_algebra.
From Coq Require List.
From Verif.Base Require Import Py.
From Verif.Blocks Require Import Model Spec MatProofs PsdProofs EigProofs FactorProofs.
From Verif.Series Require Import Model Spec QuantProofs Opt1Proofs Opt2Proofs SvdProofs CovProofs EndProofs.
Set Implicit Arguments.
Unset Strict Implicit.
Unset Printing Implicit Defensive.
Import GRing.Theory Num.Theory Order.TTheory.
Local Open Scope ring_scope.

Section Witness.
Variable F : rcfType.
Variable eigh : forall n, 'M[F]_n -> 'rV[F]_n * 'M[F]_n.
Variable svd : forall n, 'M[F]_n -> 'rV[F]_n * 'M[F]_n * 'M[F]_n.
Variable pow : F -> F -> F.
Hypothesis eighP : eigh_contract eigh.
Hypothesis svdP : svd_contract svd.
Hypothesis powP : power_laws pow.

Lemma kron_scalar m n (a b : F) : kronecker_product (a%:M : 'M[F]_m) (b%:M : 'M[F]_n) = (a * b)%:M.
Proof.
rewrite -!diag_const_mx kron_diag; congr diag_mx; by apply/rowP => p; rewrite !mxE.
Qed.
Lemma inv_scalar n (a : F) : a != 0 -> invmx (a%:M : 'M[F]_n) = (a^-1)%:M.
Proof. by move=> h; apply/esym/invmx_unique; rewrite -scalar_mxM mulfV. Qed.
Lemma psd_scalar n (a : F) : 0 <= a -> psd (a%:M : 'M[F]_n).
Proof.
move=> a0; split; first by rewrite tr_scalar_mx.
by move=> x; rewrite mul_mx_scalar -scalemxAl mxE mulr_ge0 // -[x^T]mulmx1 -/(bf _ _ _) /bf -/(qf _ _) qf1 sumsq_ge0.
Qed.
Lemma sequence2 n (a b : F) : a != 0 ->
  sequence_cov 2 (a%:M : 'M[F]_n) b%:M = (2%:R * (a + b))%:M.
Proof.
move=> h; rewrite /sequence_cov !big_ord_recl !big_ord0 /= !addr0 inv_scalar // -!scalar_mxM tr_scalar_mx.
rewrite divfK // addrA -!raddfD /=; congr _%:M.
by rewrite mulr_natl mulr2n -addrA [b + a]addrC.
Qed.
Lemma scalar_shift n (a b : F) : `|b| <= a -> shift_bounded (a%:M : 'M[F]_n) b%:M.
Proof.
move=> hb x y; rewrite -!/(bf _ _ _).
have e c (u w : 'cV[F]_n) : bf c%:M u w = c * bf 1%:M u w by rewrite -[c%:M]scalemx1 bfZ.
rewrite !(e a) (e b) !bf_dot -mulrDr -big_split /=.
have -> : 2%:R * (b * (\sum_i x i 0 * y i 0)) = \sum_i b * (2%:R * (x i 0 * y i 0)).
  by rewrite mulrCA !mulr_sumr.
rewrite mulr_sumr -big_split /=; apply: sumr_ge0 => i _; set p := x i 0; set q := y i 0.
have a0 : 0 <= a by apply: le_trans hb; exact: normr_ge0.
have hq : `|2%:R * (p * q)| <= p * p + q * q.
  rewrite ler_norml; apply/andP; split; rewrite -subr_ge0 ?opprK.
    have -> : 2%:R * (p * q) + (p * p + q * q) = (p + q) ^+ 2.
      by rewrite sqrrD mulr_natl !expr2 addrC addrAC.
    exact: sqr_ge0.
  have -> : p * p + q * q - 2%:R * (p * q) = (p - q) ^+ 2.
    by rewrite sqrrB mulr_natl !expr2 addrAC.
  exact: sqr_ge0.
have hk : `|b * (2%:R * (p * q))| <= a * (p * p + q * q).
  by rewrite normrM; apply: ler_pmul => //; exact: normr_ge0.
by move: hk; rewrite ler_norml => /andP [hk _]; rewrite -subr_ge0 opprK addrC in hk.
Qed.

(** ** Option 1 and negative covariances *)
Lemma option1_witness meth :
  let A0 : 'M[F]_1 := 3%:R%:M in let A1 : 'M[F]_1 := (- 2%:R)%:M in
  let G0 : 'M[F]_1 := 3%:R%:M in let G1 : 'M[F]_1 := 2%:R%:M in
  let serve (C0 C1 : 'M[F]_1) := series_update eigh svd pow meth 0 [:: 0%N] [::] (fun=> 1) C0 C1 in
  [/\ psd A0, psd G0, shift_bounded A0 A1 & shift_bounded G0 G1] /\
  exists (w : params F 1 1 false) cv cw K0 K1,
    [/\ series_multiply_matpower Option1 2 (serve A0 A1 : series_quants F (rows 1 false)) (serve G0 G1) 0 0
          (1%:M : params F 1 1 false) (-1) = Ok w,
        is_column (1%:M : params F 1 1 false) cv, is_column w cw,
        is_kron (A0 + 1 *: 1%:M : 'M[F]_(rows 1 false)) (G0 + 1 *: 1%:M) K0 /\
        is_kron (symmetric_part A1 : 'M[F]_(rows 1 false)) (symmetric_part G1) K1
      & sequence_cov 2 K0 K1 *m cw <> cv].
Proof.
move=> A0 A1 G0 G1 serve.
have hA : psd A0 by apply: psd_scalar; rewrite ler0n.
have bA : shift_bounded A0 A1 by apply: scalar_shift; rewrite normrN normr_nat ler_nat.
have bG : shift_bounded G0 G1 by apply: scalar_shift; rewrite normr_nat ler_nat.
split=> //.
have [w [hw h]] := @block_option1 F eigh svd pow eighP svdP powP 1 1 2 false meth 0 [:: 0%N] [::] [:: 0%N] [::]
  (fun=> 1) (fun=> 1) A0 A1 G0 G1 0 0 (lexx _) hA hA ltr01 ltr01 bA bG isT (1%:M : params F 1 1 false)
  (or_introl erefl) (or_introl erefl).
have e4 : A0 + 1 *: 1%:M = 4%:R%:M by rewrite scale1r /A0 -raddfD /= -[4%:R]/(1 *+ (3 + 1)) mulrnDr.
have s2 (a : F) : symmetric_part (a%:M : 'M[F]_1) = a%:M by apply: symmetric_part_id; rewrite tr_scalar_mx.
have n4 : 4%:R != 0 :> F by rewrite pnatr_eq0.
have a2 (a : F) : a * a = 4%:R -> relative_abs (A0 + 1 *: 1%:M) (symmetric_part (a%:M : 'M[F]_1)) 2%:R%:M.
  move=> ha; rewrite e4 s2; split; first by apply: psd_scalar; rewrite ler0n.
  rewrite inv_scalar // -!scalar_mxM; congr _%:M.
  by rewrite mulrAC [RHS]mulrAC ha -natrM.
have q1 : (- 2%:R) * (- 2%:R) = 4%:R :> F by rewrite mulrNN -natrM.
have q2 : 2%:R * 2%:R = 4%:R :> F by rewrite -natrM.
have := h _ _ _ _ _ _ (column_is_column _) (column_is_column _) (a2 _ q1) (a2 _ q2)
  (@is_kron_model F _ _ _ _ _ _) (@is_kron_model F _ _ _ _ _ _) => h1.
exists w, (tensors_to_column (1%:M : params F 1 1 false)), (tensors_to_column w).
eexists; eexists; split; [exact: hw|exact: column_is_column|exact: column_is_column|
  by split; exact: is_kron_model|].
move: h1; rewrite !s2 -/A0 -/G0 e4 !kron_scalar.
have n16 : 4%:R * 4%:R != 0 :> F by rewrite -natrM pnatr_eq0.
rewrite !sequence2 //; rewrite !mul_scalar_mx => h1 h2.
move: (tensors_to_column w) h1 h2 => c h1 h2.
have : (2%:R * (4%:R * 4%:R + 2%:R * 2%:R) - 2%:R * (4%:R * 4%:R + - 2%:R * 2%:R)) *: c = 0.
  by rewrite scalerBl h1 h2 subrr.
move/eqP; rewrite scaler_eq0 -mulrBr opprD addrACA subrr add0r mulNr opprK -!natrM -natrD -natrM pnatr_eq0 /=.
move/eqP => c0; rewrite c0 scaler0 in h1.
have := congr1 (fun M : 'cV[F]_(1 * 1) => M 0 0) h1.
rewrite /= !mxE /=; move/eqP; rewrite eq_sym.
by rewrite oner_eq0.
Qed.

(** ** Registering the first option changes the second *)
Lemma shift_delta n (i j : 'I_n) : shift_bounded (3%:R%:M : 'M[F]_n) (delta_mx i j).
Proof.
move=> x y; rewrite -!/(bf _ _ _).
have e (u : 'cV[F]_n) : bf 3%:R%:M u u = 3%:R * bf 1%:M u u by rewrite -[3%:R%:M]scalemx1 bfZ.
have ed : bf (delta_mx i j) x y = x i 0 * y j 0.
  rewrite /bf -(mul_delta_mx (0 : 'I_1) i j) mulmxA -colE -mulmxA -rowE mxE big_ord1 !mxE //.
have ge (u : 'cV[F]_n) k : u k 0 ^+ 2 <= 3%:R * bf 1%:M u u.
  rewrite bf_dot (bigD1 k) //= -expr2 mulrDr mulr_natl mulrS -addrA ler_addl addr_ge0 ?mulrn_wge0 ?sqr_ge0 //.
  by rewrite mulr_ge0 ?ler0n //; apply: sumr_ge0 => l _; rewrite -expr2 sqr_ge0.
rewrite !e ed; apply: le_trans (ler_add (ler_add (ge x i) (ge y j)) (lexx _)).
have -> : x i 0 ^+ 2 + y j 0 ^+ 2 + 2%:R * (x i 0 * y j 0) = (x i 0 + y j 0) ^+ 2.
  by rewrite sqrrD mulr_natl addrAC.
exact: sqr_ge0.
Qed.

Lemma option2_witness meth :
  let A0 : 'M[F]_2 := 3%:R%:M in let A1 : 'M[F]_2 := delta_mx 0 1 in
  let G0 : 'M[F]_1 := 3%:R%:M in let G1 : 'M[F]_1 := delta_mx 0 0 in
  let input ids1 := series_update eigh svd pow meth 0 ids1 [:: 0%N] (fun=> 1) A0 A1 in
  let output := series_update eigh svd pow meth 0 [::] [:: 0%N] (fun=> 1) G0 G1 in
  [/\ psd A0, psd G0, shift_bounded A0 A1 & shift_bounded G0 G1] /\
  forall v : params F 2 1 false, v <> 0 :> 'M[F]_(2, 1) ->
  exists w w' : params F 2 1 false,
    [/\ series_multiply_matpower Option2 2 (input [::] : series_quants F (rows 2 false)) output 0 0 v (-1) = Ok w,
        series_multiply_matpower Option2 2 (input [:: 1%N] : series_quants F (rows 2 false)) output 0 0 v (-1)
          = Ok w' & w <> w'].
Proof.
move=> A0 A1 G0 G1 input output.
have hA : psd A0 by apply: psd_scalar; rewrite ler0n.
have hG : psd G0 by apply: psd_scalar; rewrite ler0n.
have bA : shift_bounded A0 A1 by apply: shift_delta.
have bG : shift_bounded G0 G1 by apply: shift_delta.
split=> // v nv.
have bS : shift_bounded A0 (symmetric_part A1) by apply: shift_sym.
have [w [hw h]] := @block_option2 F eigh svd pow eighP svdP powP 2 1 2 false meth 0 [::] [:: 0%N] [::] [:: 0%N]
  (fun=> 1) (fun=> 1) A0 A1 G0 G1 0 0 (lexx _) hA hG ltr01 ltr01 bA bG isT v
  (or_introl erefl) (or_introl erefl) (or_introl erefl) (or_introl erefl).
have [w' [hw' h']] := @block_option2 F eigh svd pow eighP svdP powP 2 1 2 false meth 0 [::] [:: 0%N] [::] [:: 0%N]
  (fun=> 1) (fun=> 1) A0 (symmetric_part A1) G0 G1 0 0 (lexx _) hA hG ltr01 ltr01 bS bG isT v
  (or_introl erefl) (or_introl erefl) (or_introl erefl) (or_introl erefl).
exists w, w'; split=> //.
  move: hw'; rewrite /series_multiply_matpower eqxx /input.
  rewrite (get2 eigh svd pow meth 0 [::] (fun=> 1) A0 (symmetric_part A1) (or_introl erefl : List.In 0%N [:: 0%N])).
  by rewrite (get2 eigh svd pow meth 0 [:: 1%N] (fun=> 1) A0 A1 (or_introl erefl : List.In 0%N [:: 0%N])).
move=> ww; rewrite -ww in h'.
have e4 n : (3%:R%:M : 'M[F]_n) + 1 *: 1%:M = 4%:R%:M by rewrite scale1r -raddfD /= -[4%:R]/(1 *+ (3 + 1)) mulrnDr.
have [_ m1] := h _ _ _ _ (column_is_column _) (column_is_column _)
  (@is_kron_model F _ _ _ _ _ _) (@is_kron_model F _ _ _ _ _ _).
have [[W [hW _]] m2] := h' _ _ _ _ (column_is_column _) (column_is_column _)
  (@is_kron_model F _ _ _ _ _ _) (@is_kron_model F _ _ _ _ _ _).
clear hW; move: m1 m2; rewrite /A0 /G0 !e4 kron_scalar.
have g1 : G1 = 1%:M by apply/matrixP => i j; rewrite !mxE !ord1.
have n16 : 4%:R * 4%:R != 0 :> F by rewrite -natrM pnatr_eq0.
set a := 4%:R * 4%:R in n16 *.
set V1 := kronecker_product A1 G1; set V1s := kronecker_product (symmetric_part A1) G1.
have AA : A1 *m A1 = 0 by rewrite /A1 mul_delta_mx_0.
have V11 : V1 *m V1 = 0 by rewrite /V1 kron_mul AA; apply/matrixP => i j; rewrite !mxE mul0r.
have sum2 : V1 + V1^T = 2%:R *: V1s.
  rewrite /V1 /V1s kron_tr g1 trmx1; apply/matrixP => i j; rewrite !mxE -mulrDl !mulrA mulfV ?pnatr_eq0 // mul1r //.
have ss : V1s *m V1s = (4%:R^-1)%:M.
  have -> : V1s *m V1s = kronecker_product (symmetric_part A1 *m symmetric_part A1) 1%:M.
    by rewrite /V1s kron_mul g1 mulmx1.
  have -> : symmetric_part A1 *m symmetric_part A1 = (4%:R^-1)%:M.
    rewrite /symmetric_part -scalemxAl -scalemxAr scalerA -invfM -natrM mulmxDr !mulmxDl AA.
    rewrite /A1 !trmx_delta !mul_delta_mx mul_delta_mx_0 // add0r addr0 -[_%:M]scalemx1; congr (_ *: _).
    by apply/matrixP; case=> [[|[|//]] /= pi]; case=> [[|[|//]] /= pj]; rewrite !mxE /= ?addr0 ?add0r.
  by rewrite kron_scalar mulr1.
have V1ss : V1s^T = V1s.
  by rewrite /V1s kron_tr symmetric_part_sym g1 trmx1.
clearbody V1 V1s => m1 m2.
have a16 : a = 16%:R by rewrite /a -natrM.
have hV : is_lag_sum a%:M V1 (a%:M + V1).
  rewrite /is_lag_sum inv_scalar // mul_mx_scalar -scalemxAl mulmxDr V11 addr0 mul_mx_scalar.
  by rewrite scalerA mulVf // scale1r.
have {}m1 := m1 _ hV.
pose q : F := 1023%:R; pose r := 1024%:R / q.
have nq : q != 0 by rewrite pnatr_eq0.
have {}m2 := m2 (r *: (a%:M + V1s)).
have hW : is_lag_sum a%:M V1s (r *: (a%:M + V1s)).
  rewrite /is_lag_sum inv_scalar // mul_mx_scalar -scalemxAl -scalemxAr mulmxDr ss mul_mx_scalar.
  rewrite !scalerDr !scalerA addrCA addrC [a^-1 * (r * a)]mulrCA mulVf // mulr1; congr (_ + _).
  rewrite !scale_scalar_mx -raddfD /=; congr _%:M; rewrite a16.
  apply: (mulIf nq); rewrite mulrDl.
  have e1 : r * 16%:R * q = 1024%:R * 16%:R by rewrite mulrAC /r divfK.
  have e2 : 16%:R^-1 * r * 4%:R^-1 * q = 16%:R.
    rewrite -[_ * r * _]mulrA [r * _]mulrC mulrA -[_ * r * q]mulrA /r divfK // -invfM -natrM.
    apply: (@mulfI _ (16 * 4)%:R); first by rewrite pnatr_eq0.
    by rewrite mulrA mulfV ?pnatr_eq0 // mul1r -natrM.
  by rewrite e1 e2 -!natrM -natrD.
have {}m2 := m2 hW.
have nc : tensors_to_column v <> 0.
  move=> z; apply: nv; have := column_of_tensors v; rewrite z => <-.
  by apply/matrixP => i j; rewrite !mxE.
apply: nc; move: (tensors_to_column v) (tensors_to_column w) m1 m2 => cv c m1 m2.
have n2 : 2%:R != 0 :> F by rewrite pnatr_eq0.
have f1 : a%:M + V1 + (a%:M + V1)^T = 2%:R *: (a%:M + V1s).
  by rewrite linearD /= tr_scalar_mx addrACA sum2 scalerDr -mulr2n !scaler_nat.
have f2 : r *: (a%:M + V1s) + (r *: (a%:M + V1s))^T = r *: (2%:R *: (a%:M + V1s)).
  have -> : (r *: (a%:M + V1s))^T = r *: (a%:M + V1s).
    by apply/matrixP => i j; rewrite -[V1s in LHS]V1ss -[a%:M in LHS]tr_scalar_mx !mxE.
  by rewrite -mulr2n scaler_nat scalerMnr.
rewrite {}f1 in m1; rewrite {}f2 in m2.
set U := a%:M + V1s in m1 m2.
have hU : U *m c = 0.
  have : (2%:R * ((r - 1) * 2%:R)) *: (U *m c) = 0.
    have k1 : 2%:R *: (2%:R *: (U *m c) - a%:M *m c) = cv by rewrite -m1 -scalemxAl mulmxBl -scalemxAl.
    have k2 : 2%:R *: (r *: (2%:R *: (U *m c)) - a%:M *m c) = cv by rewrite -m2 -scalemxAl mulmxBl -!scalemxAl.
    move: k2; rewrite -k1 => /(scalerI n2) /addIr k.
    by rewrite -!scalerA scalerBl scale1r k subrr scaler0.
  move/eqP; rewrite scaler_eq0 !mulf_eq0 (negPf n2) orbF /= => /orP [|/eqP //].
  rewrite subr_eq0 /r => /eqP h1; have := divfK nq (1024%:R); rewrite h1 mul1r => /eqP.
  by rewrite /q eqr_nat.
have hV1 : V1s *m c = - (a *: c).
  by apply/eqP; rewrite -addr_eq0 addrC -mul_scalar_mx -mulmxDl -/U hU.
have hc : (4%:R^-1 - a * a) *: c = 0.
  have := congr1 (mulmx V1s) hV1; rewrite mulmxA ss mul_scalar_mx mulmxN -scalemxAr hV1 scalerN opprK scalerA => h1.
  by rewrite scalerBl h1 subrr.
have c0 : c = 0.
  move/eqP: hc; rewrite scaler_eq0 => /orP [|/eqP //]; rewrite subr_eq0 a16 => /eqP h1.
  have := @mulVf F 4%:R; rewrite h1 pnatr_eq0 -!natrM => /(_ isT) /eqP.
  by rewrite -[1]/(1%:R) eqr_nat.
by rewrite -m1 c0 mulmx0.
Qed.
End Witness.
