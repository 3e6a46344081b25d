(** Linear algebra of the time series approximations. *)
From mathcomp Require Import all_ssreflect all_algebra.
From Coq Require Import Ring.
From Verif.Base Require Import Py.
From Verif.Blocks Require Import Model Spec MatProofs PsdProofs EigProofs FactorProofs.
From Verif.Series Require Import Model Spec.
Set Implicit Arguments.
Unset Strict Implicit.
Unset Printing Implicit Defensive.
Import GRing.Theory Num.Theory Order.TTheory.
Local Open Scope ring_scope.

(** Polynomial identities, in any commutative ring. *)
Section Identities.
Variables (T : Type) (z o : T) (add mul sub : T -> T -> T) (opp : T -> T).
Hypothesis th : ring_theory z o add mul sub opp eq.
Add Ring T_ring : th.
Local Notation "a + b" := (add a b).
Local Notation "a * b" := (mul a b).
Local Notation "a - b" := (sub a b).
Lemma id_geo x y : (o - x) * (x * y) + (x - x * y) = x - x * (x * y).
Proof. ring. Qed.
Lemma id_seq x y t :
  (t * (o - x * x) - (o + o) * x * (o - y)) + (o + o) * (o - x) * (x - x * y) + (o - x) * (o - x) =
  (t + o) * (o - x * x) - (o + o) * x * (o - x * y).
Proof. ring. Qed.
Lemma id_plus p q : (p + q) * (p + q) + (p * p + q * q) = (o + o) * (p * p + q * q + p * q).
Proof. ring. Qed.
Lemma id_minus p q : (p - q) * (p - q) + (p * p + q * q) = (o + o) * (p * p + q * q - p * q).
Proof. ring. Qed.
Lemma id_tot a b c d e f : a + (b + c + d + ((b + e + f) - b)) = c + (e + (b + (a + (d + f)))).
Proof. ring. Qed.
End Identities.

Section Scalars.
Variable F : rcfType.
Implicit Type x : F.
Lemma F_ring : @ring_theory F 0 1 +%R *%R (fun a b => a - b) -%R eq.
Proof.
split=> //; [exact: add0r|exact: addrC|exact: addrA|exact: mul1r|exact: mulrC|exact: mulrA|exact: mulrDl|exact: subrr].
Qed.
Definition lag (s t : nat) : nat := if (s <= t)%N then (t - s)%N else (s - t)%N.
Definition seq_sum (T : nat) x : F := \sum_(t < T) \sum_(s < T) x ^+ lag s t.

Lemma geo_tail T x : (1 - x) * (\sum_(s < T) x ^+ (T - s)) = x - x ^+ T.+1.
Proof.
elim: T => [|T IH]; first by rewrite big_ord0 mulr0 expr1 subrr.
rewrite big_ord_recl subn0 mulrDr /=.
under eq_bigr do rewrite /bump /= add1n subSS.
rewrite IH !exprS; exact: (id_geo F_ring).
Qed.
Lemma seq_sum_closed T x :
  (1 - x) ^+ 2 * seq_sum T x = T%:R * (1 - x ^+ 2) - 2%:R * x * (1 - x ^+ T).
Proof.
elim: T => [|T IH].
  by rewrite /seq_sum big_ord0 mulr0 mul0r expr0 subrr mulr0 subr0.
have -> : seq_sum T.+1 x = seq_sum T x + 2%:R * (\sum_(s < T) x ^+ (T - s)) + 1.
  have l0 : lag T T = 0%N by rewrite /lag leqnn subnn.
  rewrite /seq_sum big_ord_recr /= [X in _ + X]big_ord_recr /= l0 expr0.
  have -> : \sum_(i < T) \sum_(s < T.+1) x ^+ lag s i =
      \sum_(i < T) \sum_(s < T) x ^+ lag s i + \sum_(i < T) x ^+ (T - i).
    rewrite -big_split /=; apply: eq_bigr => i _; rewrite big_ord_recr /=; congr (_ + _).
    by rewrite /lag leqNgt ltn_ord.
  have -> : \sum_(i < T) x ^+ lag i T = \sum_(i < T) x ^+ (T - i).
    by apply: eq_bigr => i _; rewrite /lag (ltnW (ltn_ord i)).
  by rewrite !addrA mulr_natl mulr2n addrA.
rewrite [LHS]mulrDr [X in X + _ = _]mulrDr IH mulr1.
have -> : (1 - x) ^+ 2 * (2%:R * (\sum_(s < T) x ^+ (T - s))) = 2%:R * (1 - x) * (x - x ^+ T.+1).
  by rewrite -geo_tail expr2 mulrCA !mulrA.
rewrite [T.+1%:R]mulrSr !exprS expr0 !mulr1 !mulr2n; exact: (id_seq F_ring).
Qed.
Lemma seq_sum_gt0 T x : (0 < T)%N -> 0 <= x -> 0 < seq_sum T x.
Proof.
case: T => // T _ x0; rewrite /seq_sum big_ord_recl [X in X + _]big_ord_recl /=.
have -> : lag 0 0 = 0%N by []. 
rewrite expr0 -addrA; apply: ltr_paddr; last exact: ltr01.
rewrite addr_ge0 //; first by apply: sumr_ge0 => i _; rewrite exprn_ge0.
by apply: sumr_ge0 => i _; apply: sumr_ge0 => j _; rewrite exprn_ge0.
Qed.
Lemma gammaE T x : (0 < T)%N -> 0 <= x -> x < 1 -> gamma T x = (seq_sum T x)^-1.
Proof.
move=> T0 x0 x1; have pos := seq_sum_gt0 T0 x0.
have nz : (1 - x) ^+ 2 != 0 by rewrite expf_neq0 // subr_eq0 eq_sym lt_eqF.
by rewrite /gamma -seq_sum_closed invfM mulrA divff // mul1r.
Qed.
End Scalars.

Section Matrices.
Variable F : rcfType.
Variable eigh : forall n, 'M[F]_n -> 'rV[F]_n * 'M[F]_n.
Variable svd : forall n, 'M[F]_n -> 'rV[F]_n * 'M[F]_n * 'M[F]_n.
Variable pow : F -> F -> F.
Hypothesis eighP : eigh_contract eigh.
Hypothesis svdP : svd_contract svd.
Hypothesis powP : power_laws pow.

(** ** The inverse square root *)
Lemma matpower_sym n (M P : 'M[F]_n) e : is_matpower pow M e P -> P^T = P.
Proof. by move=> [V [d [_ _ _ ->]]]; rewrite !trmx_mul trmxK tr_diag_mx mulmxA. Qed.
Lemma matpower_half n (M P : 'M[F]_n) : is_matpower pow M (- 2^-1) P -> P *m M *m P = 1%:M.
Proof.
move=> [V [d [hV pos -> ->]]]; have hV' := orth_unit hV.
rewrite !mulmxA -[_ *m V^T *m V]mulmxA hV' mulmx1 -[_ *m V^T *m V]mulmxA hV' mulmx1.
rewrite -[V *m _ *m _]mulmxA -[V *m _ *m _]mulmxA !mulmx_diag.
set w := (X in diag_mx X).
have -> : w = \row_i 1.
  apply/rowP => i; rewrite !mxE (pow_minus_half powP) //.
  have s0 : Num.sqrt (d 0 i) != 0 by rewrite gt_eqF // sqrtr_gt0.
  by rewrite -[X in _ * X * _](sqr_sqrtr (ltW (pos i))) expr2 mulrA mulVf // mul1r divff.
have -> : diag_mx (\row_(i < n) 1) = 1%:M :> 'M[F]_n.
  by apply/matrixP => i j; rewrite !mxE.
by rewrite mulmx1.
Qed.
Lemma invsqrt_spec clip n (C0 : 'M[F]_n) d : psd C0 -> 0 < d -> clip <= 0 ->
  let S := invsqrt_cov pow (get_eigendecomp eigh clip (set_cov (dense_init F n) C0)) d in
  S^T = S /\ S *m (C0 + d *: 1%:M) *m S = 1%:M.
Proof.
move=> hC d0 hc /=; have hp := eig_power pow eighP (- 2^-1) hC d0 hc.
have hE : invsqrt_cov pow (get_eigendecomp eigh clip (set_cov (dense_init F n) C0)) d =
  eig_recompose (eigh C0).2 (\row_j pow (Num.max ((eigh C0).1 0 j) clip + d) (- 2^-1)).
  rewrite /invsqrt_cov /get_eigendecomp /=; case: (eigh C0) hp => e V /= hp.
  set M := eig_recompose _ _.
  have -> : M = eig_recompose V (\row_j pow (Num.max (e 0 j) clip + d) (- 2^-1)).
    by congr eig_recompose; apply/rowP => j; rewrite !mxE.
  by rewrite (matpower_sym hp) -mulr2n -scaler_nat scalerA mulVf ?pnatr_eq0 // scale1r.
by rewrite hE; split; [apply: matpower_sym hp|apply: matpower_half hp].
Qed.

(** ** Bounds *)
Definition bf n (M : 'M[F]_n) (x y : 'cV[F]_n) : F := (x^T *m M *m y) 0 0.
Lemma bf_tr n (M : 'M[F]_n) x y : bf M^T x y = bf M y x.
Proof.
have -> : bf M y x = ((y^T *m M *m x)^T) 0 0 by rewrite mxE.
by rewrite /bf !trmx_mul trmxK mulmxA.
Qed.
Lemma bfD n (A B : 'M[F]_n) x y : bf (A + B) x y = bf A x y + bf B x y.
Proof. by rewrite /bf mulmxDr mulmxDl mxE. Qed.
Lemma bfZ n a (A : 'M[F]_n) x y : bf (a *: A) x y = a * bf A x y.
Proof. by rewrite /bf -scalemxAr -scalemxAl mxE. Qed.
Lemma bfNr n (M : 'M[F]_n) x y : bf M x (- y) = - bf M x y.
Proof. by rewrite /bf mulmxN mxE. Qed.
Lemma bfNl n (M : 'M[F]_n) x y : bf M (- x) y = - bf M x y.
Proof. by rewrite /bf linearN /= !mulNmx mxE. Qed.
Lemma bf_congr n (S M : 'M[F]_n) x y : bf M (S *m x) (S *m y) = bf (S^T *m M *m S) x y.
Proof. by rewrite /bf trmx_mul !mulmxA. Qed.

Lemma shift_sym n (C0 C1 : 'M[F]_n) : shift_bounded C0 C1 -> shift_bounded C0 (symmetric_part C1).
Proof.
move=> h x y; have hxy := h x y; have hyx := h y x.
rewrite -!/(bf _ _ _) in hxy hyx *.
rewrite /symmetric_part bfZ bfD bf_tr mulrA divff ?pnatr_eq0 // mul1r.
have := addr_ge0 hxy hyx.
set a := bf C0 x x; set b := bf C0 y y; set c := bf C1 x y; set d := bf C1 y x.
have -> : a + b + 2%:R * c + (b + a + 2%:R * d) = 2%:R * (a + b + (c + d)).
  by rewrite addrACA [b + a]addrC -mulr2n -[2%:R * c + _]mulrDr -[_ *+ 2]mulr_natl -mulrDr.
by rewrite pmulr_rge0 ?ltr0n.
Qed.

(** The normalised cross covariance is a strict contraction. *)
Lemma contraction n (C0 C1 S : 'M[F]_n) d : shift_bounded C0 C1 -> 0 < d ->
  S^T = S -> S *m (C0 + d *: 1%:M) *m S = 1%:M ->
  forall u w, (u != 0) || (w != 0) ->
    2%:R * bf (S *m C1 *m S) u w < bf 1%:M u u + bf 1%:M w w.
Proof.
move=> h d0 hS h1 u w nz.
have hu : S \in unitmx by apply: (mulmx1_unit h1).2.
have e x : bf C0 (S *m x) (S *m x) = bf 1%:M x x - d * bf 1%:M (S *m x) (S *m x).
  rewrite !bf_congr hS; have -> : bf 1%:M x x = bf (S *m (C0 + d *: 1%:M) *m S) x x by rewrite h1.
  by rewrite mulmxDr mulmxDl bfD -scalemxAr -scalemxAl bfZ addrK.
have := h (S *m u) (- (S *m w)); rewrite -!/(bf _ _ _) bfNr bfNl opprK bfNr !e => hh.
have -> : bf (S *m C1 *m S) u w = bf C1 (S *m u) (S *m w) by rewrite bf_congr hS.
have p : 0 < d * bf 1%:M (S *m u) (S *m u) + d * bf 1%:M (S *m w) (S *m w).
  have q x : 0 <= bf 1%:M x x by rewrite /bf -/(qf _ _) qf1 sumsq_ge0.
  have q' x : x != 0 -> 0 < bf 1%:M (S *m x) (S *m x).
    move=> x0; rewrite /bf -/(qf _ _) qf1 sumsq_gt0 //.
    by apply: contra x0 => /eqP x0; rewrite -(mulKmx hu x) x0 mulmx0.
  case/orP: nz => nz; [apply: ltr_paddr|apply: ltr_paddl]; rewrite ?pmulr_rge0 ?pmulr_rgt0 ?q ?q' //.
move: hh; rewrite mulrN subr_ge0 addrACA -opprD => hh.
by apply: (le_lt_trans hh); rewrite ltr_subl_addr ltr_addl.
Qed.

Lemma unit_col n (V : 'M[F]_n) i : V *m V^T = 1%:M -> bf 1%:M (col i V) (col i V) = 1.
Proof.
move=> hV; have hV' := orth_unit hV; rewrite /bf mulmx1 colE trmx_mul -mulmxA [V^T *m _]mulmxA hV' mul1mx.
by rewrite trmx_delta mul_delta_mx mxE !eqxx.
Qed.
Lemma unit_col_neq0 n (V : 'M[F]_n) i : V *m V^T = 1%:M -> col i V != 0.
Proof.
move=> hV; apply/eqP => h; have := unit_col i hV; rewrite h /bf mulmx0 mxE => /eqP.
by rewrite eq_sym oner_eq0.
Qed.
Lemma diag_entry n (U V M : 'M[F]_n) s i : U *m U^T = 1%:M -> V *m V^T = 1%:M ->
  M = U *m diag_mx s *m V^T -> bf M (col i U) (col i V) = s 0 i.
Proof.
move=> hU hV ->; have hU' := orth_unit hU; have hV' := orth_unit hV.
rewrite /bf !colE trmx_mul !mulmxA -[_ *m U^T *m U]mulmxA hU' mulmx1.
rewrite -[_ *m V^T *m V]mulmxA hV' mulmx1 trmx_delta -rowE -colE !mxE eqxx mulr1n //.
Qed.
(** Singular values below one. *)
Lemma singular_lt1 n (C0 C1 S U V : 'M[F]_n) d s : shift_bounded C0 C1 -> 0 < d ->
  S^T = S -> S *m (C0 + d *: 1%:M) *m S = 1%:M ->
  U *m U^T = 1%:M -> V *m V^T = 1%:M -> S *m C1 *m S = U *m diag_mx s *m V^T ->
  forall i, s 0 i < 1.
Proof.
move=> h d0 hS h1 hU hV hM i.
have := contraction h d0 hS h1 (u := col i U) (w := col i V).
rewrite unit_col_neq0 // => /(_ isT); rewrite (diag_entry i hU hV hM) !unit_col //.
by rewrite -mulr2n -[X in _ < X]mulr1 ltr_pmul2l ?ltr0n.
Qed.

(** ** Kronecker products *)
Lemma kron_diag k n (a : 'rV[F]_k) (g : 'rV[F]_n) :
  kronecker_product (diag_mx a) (diag_mx g) =
  diag_mx (\row_p (a 0 (rm_row p) * g 0 (rm_col p))).
Proof.
apply/matrixP => r s; rewrite -(rm_posK r) -(rm_posK s) kronE !mxE !rm_rowK !rm_colK.
set i := rm_row r; set j := rm_row s; set p := rm_col r; set q := rm_col s.
have -> : (rm_pos i p == rm_pos j q) = (i == j) && (p == q).
  apply/eqP/andP => [|[/eqP -> /eqP ->] //]; move=> h.
  by have := congr1 (@rm_row k n) h; have := congr1 (@rm_col k n) h; rewrite !rm_rowK !rm_colK => -> ->.
by case: eqP => _; case: eqP => _; rewrite /= ?mulr1n ?mulr0n ?mulr0 ?mul0r.
Qed.
Lemma vec_scale k n (Y X : 'M[F]_(k, n)) :
  vec (\matrix_(i, j) (X i j * Y i j)) = diag_mx (\row_p Y (rm_row p) (rm_col p)) *m vec X.
Proof. by apply/colP => p; rewrite mul_diag_mx !mxE mulrC. Qed.

(** ** Option 1 *)
(** [L] and [psi] describe the pair of covariances: [C0] is [Li^T Li] and [C1] is
    [Li^T diag(psi) Li] with [Li] the inverse of [L]. *)
Definition describes n (C0 C1 L : 'M[F]_n) (psi : 'rV[F]_n) (Li : 'M[F]_n) : Prop :=
  [/\ L *m Li = 1%:M, C0 = Li^T *m Li & C1 = Li^T *m diag_mx psi *m Li].

Lemma lag_described n (V0 V1 L Li : 'M[F]_n) x : describes V0 V1 L x Li ->
  forall d, lag_cov V0 V1 d = Li^T *m diag_mx (\row_i x 0 i ^+ d) *m Li.
Proof.
move=> [hL h0 h1]; have hL' := mulmx1C hL.
have i0 : invmx V0 = L *m L^T.
  apply/esym/invmx_unique; rewrite h0 mulmxA -[_ *m Li *m L]mulmxA hL' mulmx1.
  by rewrite -trmx_mul hL trmx1.
elim=> [|d IH] /=.
  rewrite {1}h0; set D := diag_mx _; have -> : D = 1%:M by apply/matrixP => i j; rewrite !mxE expr0.
  by rewrite mulmx1.
rewrite IH i0 h1 !mulmxA -[_ *m Li *m L]mulmxA hL' mulmx1.
rewrite -[_ *m L^T *m Li^T]mulmxA -trmx_mul hL' trmx1 mulmx1 -[Li^T *m _ *m _]mulmxA mulmx_diag.
by congr (_ *m diag_mx _ *m _); apply/rowP => i; rewrite !mxE exprS.
Qed.
Lemma sequence_described n (V0 V1 L Li : 'M[F]_n) x T : describes V0 V1 L x Li ->
  sequence_cov T V0 V1 = Li^T *m diag_mx (\row_i seq_sum T (x 0 i)) *m Li.
Proof.
move=> h; rewrite /sequence_cov.
have -> : \row_i seq_sum T (x 0 i) = \sum_(t < T) \sum_(s < T) \row_i x 0 i ^+ lag s t.
  by apply/rowP => i; rewrite mxE summxE; apply: eq_bigr => t _; rewrite summxE; apply: eq_bigr => s _; rewrite mxE.
rewrite linear_sum /= mulmx_sumr mulmx_suml; apply: eq_bigr => t _.
rewrite linear_sum /= mulmx_sumr mulmx_suml; apply: eq_bigr => s _.
rewrite /lag; case: leqP => _; rewrite (lag_described h) //.
by rewrite !trmx_mul trmxK tr_diag_mx mulmxA.
Qed.
Lemma kron_describes k n (A0 A1 LA LiA : 'M[F]_k) a (G0 G1 LG LiG : 'M[F]_n) g :
  describes A0 A1 LA a LiA -> describes G0 G1 LG g LiG ->
  describes (kronecker_product A0 G0) (kronecker_product A1 G1) (kronecker_product LA LG)
    (\row_p (a 0 (rm_row p) * g 0 (rm_col p))) (kronecker_product LiA LiG).
Proof.
move=> [a1 -> ->] [g1 -> ->]; split.
- by rewrite kron_mul a1 g1 kron1.
- by rewrite kron_tr kron_mul.
- by rewrite kron_tr -kron_diag !kron_mul.
Qed.

Lemma option1_vec k n T (qA : option1_quants F k) (qG : option1_quants F n) (X : 'M[F]_(k, n)) :
  vec (series_option1 T qA qG X^T)^T =
  kronecker_product (q1_L qA) (q1_L qG) *m
    diag_mx (\row_p gamma T (q1_psi qG 0 (rm_col p) * q1_psi qA 0 (rm_row p))) *m
    (kronecker_product (q1_L qA) (q1_L qG))^T *m vec X.
Proof.
rewrite kron_tr -!mulmxA vec_mul trmxK.
set B := (q1_L qA)^T *m X *m q1_L qG.
have -> : diag_mx (\row_p gamma T (q1_psi qG 0 (rm_col p) * q1_psi qA 0 (rm_row p))) *m vec B =
  vec (\matrix_(i, j) (B i j * gamma T (q1_psi qG 0 j * q1_psi qA 0 i))).
  by apply/colP => p; rewrite mul_diag_mx !mxE mulrC.
rewrite vec_mul; congr vec; rewrite /series_option1 !trmx_mul !trmxK; congr (_ *m _ *m _).
have hB : B = ((q1_L qG)^T *m (X^T *m q1_L qA))^T by rewrite !trmx_mul !trmxK.
by rewrite hB; apply/matrixP => i j; rewrite !mxE.
Qed.

Lemma option1_solves k n T (qA : option1_quants F k) (qG : option1_quants F n) (X : 'M[F]_(k, n))
    (A0 A1 LiA : 'M[F]_k) (G0 G1 LiG : 'M[F]_n) :
  describes A0 A1 (q1_L qA) (q1_psi qA) LiA -> describes G0 G1 (q1_L qG) (q1_psi qG) LiG ->
  (forall i, 0 <= q1_psi qA 0 i < 1) -> (forall i, 0 <= q1_psi qG 0 i < 1) -> (0 < T)%N ->
  sequence_cov T (kronecker_product A0 G0) (kronecker_product A1 G1) *m
    vec (series_option1 T qA qG X^T)^T = vec X.
Proof.
move=> hA hG bA bG T0; have hK := kron_describes hA hG.
rewrite (sequence_described T hK) option1_vec; case: hK => hL _ _; have hL' := mulmx1C hL.
rewrite !mulmxA -[_ *m kronecker_product LiA LiG *m _]mulmxA hL' mulmx1.
set Li := kronecker_product LiA LiG in hL hL' *; set L := kronecker_product (q1_L qA) (q1_L qG) in hL hL' *.
rewrite -[Li^T *m _ *m _]mulmxA mulmx_diag.
set D := diag_mx _; have -> : D = 1%:M.
  apply/matrixP => i j; rewrite !mxE; case: eqP => _; rewrite ?mulr1n ?mulr0n //.
  have /andP [a0 a1] := bA (rm_row i); have /andP [g0 g1] := bG (rm_col i).
  have x0 : 0 <= q1_psi qA 0 (rm_row i) * q1_psi qG 0 (rm_col i) by rewrite mulr_ge0.
  have x1 : q1_psi qA 0 (rm_row i) * q1_psi qG 0 (rm_col i) < 1.
    by rewrite mulr_ilt1.
  by rewrite [q1_psi qG _ _ * _]mulrC gammaE // mulfV // gt_eqF // seq_sum_gt0.
by rewrite mulmx1 -trmx_mul hL trmx1 mul1mx.
Qed.
End Matrices.
