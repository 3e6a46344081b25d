(** The block properties of the time series approximations. *)
From mathcomp Require Import all_ssreflect all_algebra.
From Coq Require List.
From Verif.Base Require Import Py.
From Verif.Blocks Require Import Model Spec MatProofs PsdProofs EigProofs FactorProofs.
From Verif.Series Require Import Model Spec QuantProofs Opt1Proofs Opt2Proofs SvdProofs.
Set Implicit Arguments.
Unset Strict Implicit.
Unset Printing Implicit Defensive.
Import GRing.Theory Num.Theory Order.TTheory.
Local Open Scope ring_scope.

Section End.
Variable F : rcfType.
Variable eigh : forall n, 'M[F]_n -> 'rV[F]_n * 'M[F]_n.
Variable svd : forall n, 'M[F]_n -> 'rV[F]_n * 'M[F]_n * 'M[F]_n.
Variable pow : F -> F -> F.
Hypothesis eighP : eigh_contract eigh.
Hypothesis svdP : svd_contract svd.
Hypothesis powP : power_laws pow.

(** ** The first option on any data *)
Lemma posdef_eig_any meth n (M : 'M[F]_n) : M^T = M ->
  let (psi, U) := posdef_eig eigh svd meth M in
  exists V, [/\ U *m U^T = 1%:M, V *m V^T = 1%:M, forall i, 0 <= psi 0 i & M = U *m diag_mx psi *m V^T].
Proof.
move=> hM; case: meth; rewrite /posdef_eig.
  have := eighP hM; case: (eigh M) => e V [/= hD hE].
  pose g := \row_i (if e 0 i < 0 then -1 else 1 : F).
  have gg : diag_mx g *m diag_mx g = 1%:M.
    rewrite mulmx_diag; apply/matrixP => i j; rewrite !mxE; case: eqP => _; rewrite ?mulr1n ?mulr0n //.
    by case: ifP; rewrite ?mulrNN mulr1.
  exists (V *m diag_mx g); split=> //.
  - by rewrite trmx_mul tr_diag_mx -mulmxA [diag_mx g *m _]mulmxA gg mul1mx.
  - by move=> i; rewrite mxE normr_ge0.
  - rewrite trmx_mul tr_diag_mx {1}hE -!mulmxA [diag_mx _ *m (diag_mx g *m _)]mulmxA mulmx_diag.
    congr (_ *m (diag_mx _ *m _)); apply/rowP => i; rewrite !mxE; case: ltrP => h.
      by rewrite ltr0_norm // mulrNN mulr1.
    by rewrite ger0_norm // mulr1.
by have := svdP M; case: (svd M) => [[s U] V] [hU hV s0 hE]; exists V.
Qed.

(** The factorisation of a positive definite matrix. *)
Lemma root_facts n (S C : 'M[F]_n) : S^T = S -> S *m C *m S = 1%:M ->
  [/\ S *m (C *m S) = 1%:M, C *m S *m S = 1%:M, (C *m S)^T = C *m S, C *m S *m (C *m S) = C & invmx C = S *m S].
Proof.
move=> hS h1; have i1 : S *m (C *m S) = 1%:M by rewrite mulmxA.
have i2 : C *m S *m S = 1%:M := mulmx1C i1.
split=> //.
- rewrite -[LHS]mul1mx -i2 -[_ *m S *m S *m _]mulmxA.
  have -> : S *m (C *m S)^T = 1%:M by rewrite -{1}hS -trmx_mul i2 trmx1.
  by rewrite mulmx1.
- by rewrite -[_ *m _]mulmxA i1 mulmx1.
- by apply/esym/invmx_unique; rewrite mulmxA.
Qed.

Lemma abs_unique n (S C C1 P Q : 'M[F]_n) : S^T = S -> S *m C *m S = 1%:M ->
  relative_abs C C1 P -> relative_abs C C1 Q -> P = Q.
Proof.
move=> hS h1 [hP eP] [hQ eQ]; have [i1 i2 i3 i4 i5] := root_facts hS h1.
have hP' := psd_congr hS hP; have hQ' := psd_congr hS hQ.
have sq : (S *m P *m S) *m (S *m P *m S) = (S *m Q *m S) *m (S *m Q *m S).
  have e (Z : 'M[F]_n) : S *m Z *m S *m (S *m Z *m S) = S *m (Z *m invmx C *m Z) *m S by rewrite i5 !mulmxA.
  by rewrite !e eP eQ.
have [hD hE] := eighP (proj1 hP'); have [hD2 hE2] := eighP (proj1 hQ').
set a := (eigh _).1 in hD hE; set U := (eigh _).2 in hD hE.
set b := (eigh _).1 in hD2 hE2; set V := (eigh _).2 in hD2 hE2.
have a0 i : 0 <= a 0 i by rewrite -(diag_entry i hD hD hE); exact: (proj2 hP').
have b0 i : 0 <= b 0 i by rewrite -(diag_entry i hD2 hD2 hE2); exact: (proj2 hQ').
clearbody a U b V.
have q (M W : 'M[F]_n) (c : 'rV[F]_n) : W *m W^T = 1%:M -> M = W *m diag_mx c *m W^T ->
    W *m diag_mx (\row_i c 0 i ^+ 2) *m W^T = M *m M.
  move=> hW ->; have hW' := orth_unit hW.
  by rewrite !mulmxA -[_ *m W^T *m W]mulmxA hW' mulmx1 -[W *m diag_mx c *m diag_mx c]mulmxA mulmx_diag.
have key : S *m P *m S = S *m Q *m S.
  by rewrite hE hE2; apply: psd_square_inj => //; rewrite (q _ _ _ hD hE) (q _ _ _ hD2 hE2).
have back (Z : 'M[F]_n) : Z = C *m S *m (S *m Z *m S) *m (C *m S)^T.
  by rewrite i3 !mulmxA i2 mul1mx -!mulmxA i1 mulmx1.
by rewrite (back P) (back Q) key.
Qed.

Lemma psd_gram n (L : 'M[F]_n) (d : 'rV[F]_n) : (forall i, 0 <= d 0 i) -> psd (L^T *m diag_mx d *m L).
Proof.
move=> d0; split; first by rewrite !trmx_mul trmxK tr_diag_mx mulmxA.
move=> x; rewrite !mulmxA -trmx_mul -[_ *m L *m x]mulmxA -[_ *m diag_mx d *m _]mulmxA mul_diag_mx !mxE.
by apply: sumr_ge0 => i _; rewrite !mxE mulrCA mulr_ge0 // -expr2 sqr_ge0.
Qed.

Lemma option1_any meth clip n (C0 C1 : 'M[F]_n) d :
  psd C0 -> 0 < d -> clip <= 0 -> shift_bounded C0 C1 ->
  let q := (option1_iteration eigh svd pow meth (eigen_of eigh clip C0) C1 d).1 in
  (exists P, relative_abs (C0 + d *: 1%:M) (symmetric_part C1) P) /\
  (forall P, relative_abs (C0 + d *: 1%:M) (symmetric_part C1) P ->
    exists Li, describes (C0 + d *: 1%:M) P (q1_L q) (q1_psi q) Li) /\
  forall i, 0 <= q1_psi q 0 i < 1.
Proof.
move=> hC0 d0 hc hb /=.
have [hS h1] := invsqrt_spec eighP powP hC0 d0 hc; rewrite -/(eigen_of eigh clip C0) in hS h1.
rewrite /option1_iteration; set S := invsqrt_cov _ _ _ in hS h1 *.
rewrite -/(symmetric_part C1); have sC := symmetric_part_sym C1.
set M := S *m _ *m S; have hM : M^T = M by rewrite /M !trmx_mul hS sC mulmxA.
have := posdef_eig_any meth hM.
case: (posdef_eig _ _ _ M) => psi U [V [hU hV psi0 hE]] /=.
have hb' := shift_sym hb; have lt := singular_lt1 hb' d0 hS h1 hU hV hE.
have hU' := orth_unit hU; have hV' := orth_unit hV; set C0d := C0 + _ in h1 *.
have [i1 i2 i3 i4 i5] := root_facts hS h1.
have sq : U *m diag_mx psi *m U^T *m (U *m diag_mx psi *m U^T) = M *m M.
  rewrite -{2}hM {1 2}hE !trmx_mul trmxK tr_diag_mx.
  by rewrite !mulmxA -[_ *m U^T *m U]mulmxA hU' mulmx1 -[_ *m V^T *m V]mulmxA hV' mulmx1.
pose Li := U^T *m (C0d *m S); pose P0 := Li^T *m diag_mx psi *m Li.
have hD : describes C0d P0 (S *m U) psi Li.
  split=> //.
  - by rewrite /Li -mulmxA [U *m _]mulmxA hU mul1mx.
  - by rewrite /Li trmx_mul trmxK i3 -!mulmxA [U *m _]mulmxA hU mul1mx mulmxA i4.
have hP0 : relative_abs C0d (symmetric_part C1) P0.
  split.
    exact: psd_gram.
  have e : P0 = C0d *m S *m (U *m diag_mx psi *m U^T) *m (C0d *m S).
    by rewrite /P0 /Li trmx_mul trmxK i3 !mulmxA.
  rewrite e i5; move: sq i1 i2; set X := U *m diag_mx psi *m U^T; rewrite /M.
  move: X (C0d *m S) (symmetric_part C1) => X Si Y sq i1 i2.
  have -> : Si *m X *m Si *m (S *m S) *m (Si *m X *m Si) = Si *m (X *m X) *m Si.
    rewrite -!mulmxA [Si *m (S *m _)]mulmxA i2 mul1mx [S *m (Si *m _)]mulmxA i1 mul1mx //.
  rewrite sq -!mulmxA [Si *m (S *m _)]mulmxA i2 mul1mx i1 mulmx1 //.
split; first by exists P0.
split; last by move=> i; rewrite psi0 lt.
move=> P hP; exists Li; rewrite (abs_unique hS h1 hP hP0); exact: hD.
Qed.

Lemma abs_exists n (C0 C1 : 'M[F]_n) d : psd C0 -> 0 < d -> shift_bounded C0 C1 ->
  exists P, relative_abs (C0 + d *: 1%:M) (symmetric_part C1) P /\
    forall Q, relative_abs (C0 + d *: 1%:M) (symmetric_part C1) Q -> Q = P.
Proof.
move=> hC0 d0 hb; have [hS h1] := invsqrt_spec eighP powP hC0 d0 (lexx 0).
have [[P hP] _] := option1_any SelfAdjoint hC0 d0 (lexx 0) hb.
by exists P; split=> // Q hQ; exact: (abs_unique hS h1 hQ hP).
Qed.

(** ** What the factors serve *)
Lemma get1 meth clip n ids1 ids2 damp (C0 C1 : 'M[F]_n) id : List.In id ids1 ->
  get_option1quants (series_update eigh svd pow meth clip ids1 ids2 damp C0 C1) id =
  Ok (option1_iteration eigh svd pow meth (eigen_of eigh clip C0) C1 (damp id)).1.
Proof.
move=> h; rewrite /get_option1quants /series_update -/(eigen_of eigh clip C0) option1_loopE /=.
by rewrite (dict_get_map _ h).
Qed.
Lemma get2 meth clip n ids1 ids2 damp (C0 C1 : 'M[F]_n) id : List.In id ids2 ->
  get_option2quants (series_update eigh svd pow meth clip ids1 ids2 damp C0 C1) id =
  Ok (option2_iteration svd pow (eigen_of eigh clip C0) (if ids1 is [::] then C1 else symmetric_part C1)
        (damp id)).
Proof.
move=> h; rewrite /get_option2quants /series_update -/(eigen_of eigh clip C0) option1_loopE /=.
by rewrite /option2_loop (dict_get_map _ h).
Qed.

(** ** The blocks *)
Section Block.
Variables (m n T : nat) (b : bool) (meth : posdef_eig_method) (clip : F).
Variables (idsA1 idsA2 idsG1 idsG2 : seq nat) (dampA dampG : nat -> F).
Variables (A0 A1 : 'M[F]_(rows m b)) (G0 G1 : 'M[F]_n) (ia ig : nat).
Hypotheses (hclip : clip <= 0) (hA : psd A0) (hG : psd G0) (dA : 0 < dampA ia) (dG : 0 < dampG ig).
Hypotheses (bA : shift_bounded A0 A1) (bG : shift_bounded G0 G1) (T0 : (0 < T)%N).
Let input := series_update eigh svd pow meth clip idsA1 idsA2 dampA A0 A1.
Let output := series_update eigh svd pow meth clip idsG1 idsG2 dampG G0 G1.
Let A0d := A0 + dampA ia *: 1%:M.
Let G0d := G0 + dampG ig *: 1%:M.

Lemma block_option1 (v : params F m n b) : List.In ia idsA1 -> List.In ig idsG1 ->
  exists w, series_multiply_matpower Option1 T input output ia ig v (-1) = Ok w /\
    forall cv cw A1' G1' K0 K1,
      is_column v cv -> is_column w cw ->
      relative_abs A0d (symmetric_part A1) A1' -> relative_abs G0d (symmetric_part G1) G1' ->
      is_kron A0d G0d K0 -> is_kron A1' G1' K1 ->
      sequence_cov T K0 K1 *m cw = cv.
Proof.
move=> iA iG; rewrite /series_multiply_matpower eqxx /= (get1 _ _ _ _ _ _ iA) (get1 _ _ _ _ _ _ iG) /=.
eexists; split; first by [].
move=> cv cw A1' G1' K0 K1 /is_column_unique -> /is_column_unique -> aA aG /is_kron_unique -> /is_kron_unique ->.
rewrite !mat2d_col layer_of_mat2d.
have [_ [hdA bdA]] := option1_any meth hA dA hclip bA.
have [_ [hdG bdG]] := option1_any meth hG dG hclip bG.
have [LiA hLA] := hdA _ aA; have [LiG hLG] := hdG _ aG.
exact: (option1_solves _ hLA hLG bdA bdG T0).
Qed.

Lemma block_option2 (v : params F m n b) : List.In ia idsA2 -> List.In ig idsG2 ->
  idsA1 = [::] \/ A1^T = A1 -> idsG1 = [::] \/ G1^T = G1 ->
  exists w, series_multiply_matpower Option2 T input output ia ig v (-1) = Ok w /\
    forall cv cw K0 K1, is_column v cv -> is_column w cw ->
      is_kron A0d G0d K0 -> is_kron A1 G1 K1 ->
      (exists W, is_lag_sum K0 K1 W /\ forall W', is_lag_sum K0 K1 W' -> W' = W) /\
      forall W, is_lag_sum K0 K1 W -> (T%:R *: (W + W^T - K0)) *m cw = cv.
Proof.
move=> iA iG sA sG; rewrite /series_multiply_matpower eqxx /= (get2 _ _ _ _ _ _ iA) (get2 _ _ _ _ _ _ iG) /=.
have -> : (if idsA1 is [::] then A1 else symmetric_part A1) = A1.
  by case: sA => [-> //|/symmetric_part_id ->]; case: (idsA1).
have -> : (if idsG1 is [::] then G1 else symmetric_part G1) = G1.
  by case: sG => [-> //|/symmetric_part_id ->]; case: (idsG1).
eexists; split; first by [].
move=> cv cw K0 K1 /is_column_unique -> /is_column_unique -> /is_kron_unique -> /is_kron_unique ->.
rewrite !mat2d_col layer_of_mat2d.
have [SA [SiA [PA [EA [nA pA kA]]]]] := option2_nf eighP svdP powP hA dA hclip bA.
have [SG [SiG [PG [EG [nG pG kG]]]]] := option2_nf eighP svdP powP hG dG hclip bG.
have nf := kron_nf nA nG.
split; last by move=> W hW; exact: (option2_solves _ nA nG pA pG kA kG T0 hW).
by eexists; split; [apply/(is_lag_sumE nf)|move=> W' /(is_lag_sumE nf)].
Qed.

(** The matrix of the second option and the finite sums. *)
Lemma lag_sum_limits K0 K1 W : is_kron A0d G0d K0 -> is_kron A1 G1 K1 -> is_lag_sum K0 K1 W ->
  (exists r c, [/\ 0 <= r, r < 1, 0 <= c & forall N i j,
     `|(W - \sum_(d < N) lag_cov K0 K1 d) i j| <= c * r ^+ N]) /\
  exists c, forall t i j, `|(t%:R *: (W + W^T - K0) - sequence_cov t K0 K1) i j| <= c.
Proof.
move=> /is_kron_unique -> /is_kron_unique ->.
have [SA [SiA [PA [EA [nA pA kA]]]]] := option2_nf eighP svdP powP hA dA hclip bA.
have [SG [SiG [PG [EG [nG pG kG]]]]] := option2_nf eighP svdP powP hG dG hclip bG.
have nf := kron_nf nA nG; move/(is_lag_sumE nf) => ->.
split; last exact: sequence_close nf.
have [r [c [r0 r1 c0 h]]] := tail_bound nf; exists r, c; split=> // N i j.
by rewrite {1}(total_upto nf N) addrC addKr.
Qed.
End Block.
End End.
