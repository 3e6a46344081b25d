(** The statistics of the uses of a layer: over any history, the covariance between a use and
    the use before is dominated by the covariance of the uses. *)
From mathcomp Require Import all_ssreflect all_algebra.
From Coq Require List.
From Verif.Base Require Import Py.
From Verif.Blocks Require Import Model Spec MatProofs PsdProofs EigProofs FactorProofs StatProofs.
From Verif.Series Require Import Model Spec QuantProofs.
Set Implicit Arguments.
Unset Strict Implicit.
Unset Printing Implicit Defensive.
Import GRing.Theory Num.Theory Order.TTheory.
Local Open Scope ring_scope.

Section Cov.
Variable F : rcfType.

Definition sb n (C0 C1 : 'M[F]_n) x y : F := bf C0 x x + bf C0 y y + 2%:R * bf C1 x y.
Lemma shift_boundedE n (C0 C1 : 'M[F]_n) : shift_bounded C0 C1 <-> forall x y, 0 <= sb C0 C1 x y.
Proof. by []. Qed.
Lemma shift_bounded0 n : shift_bounded (0 : 'M[F]_n) 0.
Proof. by move=> x y; rewrite !mulmx0 !mul0mx mxE mulr0 !addr0. Qed.
Lemma shift_boundedZ n a (C0 C1 : 'M[F]_n) : 0 <= a -> shift_bounded C0 C1 ->
  shift_bounded (a *: C0) (a *: C1).
Proof.
move=> a0 h x y; rewrite -!/(bf _ _ _) !bfZ.
have -> : a * bf C0 x x + a * bf C0 y y + 2%:R * (a * bf C1 x y) = a * sb C0 C1 x y.
  by rewrite /sb !mulrDr mulrCA.
by rewrite mulr_ge0 //; apply: h.
Qed.
Lemma shift_boundedD n (C0 C1 D0 D1 : 'M[F]_n) : shift_bounded C0 C1 -> shift_bounded D0 D1 ->
  shift_bounded (C0 + D0) (C1 + D1).
Proof.
move=> hC hD x y; rewrite -!/(bf _ _ _) !bfD.
have -> : bf C0 x x + bf D0 x x + (bf C0 y y + bf D0 y y) + 2%:R * (bf C1 x y + bf D1 x y) =
  sb C0 C1 x y + sb D0 D1 x y.
  by rewrite /sb mulrDr [X in X + _ = _]addrACA [LHS]addrACA.
by rewrite addr_ge0 //; [apply: hC|apply: hD].
Qed.
Lemma shift_bounded_sum n I (r : seq I) (f g : I -> 'M[F]_n) :
  (forall i, shift_bounded (f i) (g i)) ->
  shift_bounded (\sum_(i <- r) f i) (\sum_(i <- r) g i).
Proof.
move=> h; elim: r => [|i r IH]; first by rewrite !big_nil; exact: shift_bounded0.
by rewrite !big_cons; apply: shift_boundedD.
Qed.
Lemma shift_bounded_ord n k (f g : 'I_k -> 'M[F]_n) :
  (forall i, shift_bounded (f i) (g i)) -> shift_bounded (\sum_i f i) (\sum_i g i).
Proof. exact: shift_bounded_sum. Qed.

(** Sums over rows. *)
Lemma bf_sum n I (r : seq I) (f : I -> 'M[F]_n) x y : bf (\sum_(i <- r) f i) x y = \sum_(i <- r) bf (f i) x y.
Proof. by rewrite /bf mulmx_sumr mulmx_suml summxE. Qed.
Lemma bf_outer n (r s : 'rV[F]_n) x y : bf (r^T *m s) x y = (r *m x) 0 0 * (s *m y) 0 0.
Proof.
rewrite /bf -!mulmxA mulmxA -trmx_mul mxE big_ord1 mxE //.
Qed.
Definition dotr n (x : 'cV[F]_n) (r : 'rV[F]_n) : F := (r *m x) 0 0.

Lemma zip_squares n (b : nat) (rows : seq 'rV[F]_n) x y : (b <= size rows)%N ->
  0 <= \sum_(r <- rows) dotr x r ^+ 2 + \sum_(r <- rows) dotr y r ^+ 2 +
       2%:R * \sum_(p <- zip (drop b rows) (take (size rows - b) rows)) (dotr x p.1 * dotr y p.2).
Proof.
move=> hb.
have -> : \sum_(r <- rows) dotr x r ^+ 2 =
    \sum_(r <- take b rows) dotr x r ^+ 2 + \sum_(r <- drop b rows) dotr x r ^+ 2.
  by rewrite -{1}(cat_take_drop b rows) big_cat.
have -> : \sum_(r <- rows) dotr y r ^+ 2 =
    \sum_(r <- take (size rows - b) rows) dotr y r ^+ 2 + \sum_(r <- drop (size rows - b) rows) dotr y r ^+ 2.
  by rewrite -{1}(cat_take_drop (size rows - b) rows) big_cat.
set l := drop b rows; set r := take (size rows - b) rows.
have hs : size l = size r by rewrite /l /r size_drop size_take ltn_subrL; case: b hb {l r} => [|b] hb //=; rewrite ?subn0 ?andbF // (leq_trans _ hb).
have key : 0 <= \sum_(q <- l) dotr x q ^+ 2 + \sum_(q <- r) dotr y q ^+ 2 + 2%:R * \sum_(p <- zip l r) dotr x p.1 * dotr y p.2.
  elim: l r hs => [|u l IH] [|w r] //=; first by rewrite !big_nil mulr0 !addr0.
  case=> /IH h; rewrite !big_cons /=.
  set a := dotr x u; set c := dotr y w.
  set A := \sum_(_ <- l) _ in h *; set C := \sum_(_ <- r) _ in h *; set D := \sum_(_ <- zip l r) _ in h *.
  have -> : a ^+ 2 + A + (c ^+ 2 + C) + 2%:R * (a * c + D) = (a + c) ^+ 2 + (A + C + 2%:R * D).
    rewrite sqrrD mulrDr [X in X + _ = _]addrACA [LHS]addrACA; congr (_ + _).
    by rewrite mulr_natl -addrA [c ^+ 2 + _]addrC addrA.
  by rewrite addr_ge0 ?sqr_ge0.
have g1 : 0 <= \sum_(q <- take b rows) dotr x q ^+ 2 by apply: sumr_ge0 => q _; exact: sqr_ge0.
have g2 : 0 <= \sum_(q <- drop (size rows - b) rows) dotr y q ^+ 2 by apply: sumr_ge0 => q _; exact: sqr_ge0.
have := addr_ge0 (addr_ge0 g1 g2) key.
set A := \sum_(_ <- take b rows) _; set B := \sum_(_ <- drop _ _) _; set C := \sum_(_ <- l) _.
set D := \sum_(_ <- r) _; set E := 2%:R * _.
by rewrite [A + B + _]addrA [A + B + _]addrACA [B + D]addrC.
Qed.

Lemma new_stats_bounded n T (rows : seq 'rV[F]_n) M : (0 < T)%N ->
  new_cov_dt1 T rows = Ok M -> shift_bounded (compute_cov rows) M.
Proof.
move=> T0; rewrite /new_cov_dt1 /compute_cov_right; case: eqP => // hs [<-].
rewrite compute_covE /avg => x y; rewrite -!/(bf _ _ _) !bfZ !bf_sum.
have sq z : \sum_(i <- rows) bf (i^T *m i) z z = \sum_(r <- rows) dotr z r ^+ 2.
  by apply: eq_bigr => r _; rewrite bf_outer expr2.
rewrite !sq.
under [X in _ + _ + _ * (_ * X)]eq_bigr do rewrite bf_outer.
have -> (N a b c : F) : N * a + N * b + 2%:R * (N * c) = N * (a + b + 2%:R * c) by rewrite mulrCA !mulrDr.
apply: mulr_ge0; first by rewrite invr_ge0 ler0n.
move: hs; rewrite /future_rows /present_rows; set b := (size rows %/ T)%N.
case: eqP => [b0|_] hs.
  rewrite b0 drop0 /= in hs *; have -> : rows = [::] by apply: size0nil.
  by rewrite !big_nil mulr0 !addr0.
by apply: zip_squares; rewrite leq_div.
Qed.
Lemma dt1_defined n T (rows : seq 'rV[F]_n) : (0 < T)%N -> (T <= size rows)%N ->
  exists M, new_cov_dt1 T rows = Ok M.
Proof.
move=> T0 hT; rewrite /new_cov_dt1 /compute_cov_right /future_rows /present_rows.
set b := (size rows %/ T)%N; have b0 : (0 < b)%N by rewrite divn_gt0.
have hb : (b <= size rows)%N by rewrite leq_div.
have -> : (b == 0%N) = false by apply/eqP => h; rewrite h in b0.
have -> : size (drop b rows) == size (take (size rows - b) rows).
  by rewrite size_drop size_take ltn_subrL b0 (leq_trans b0 hb).
by eexists.
Qed.

(** Histories. *)
Lemma total_bounded n R S T (c0 c1 : nat -> nat -> nat -> 'M[F]_n) :
  (forall r s t, (r < R)%N -> (s < S)%N -> (t < T)%N -> shift_bounded (c0 r s t) (c1 r s t)) ->
  shift_bounded (compute_total_new_cov R S T c0) (compute_total_new_cov R S T c1).
Proof.
move=> h; rewrite /compute_total_new_cov; apply: shift_boundedZ; first by rewrite invr_ge0 ler0n.
apply: shift_bounded_ord => r; apply: shift_boundedZ; first by rewrite invr_ge0 ler0n.
by apply: shift_bounded_ord => s; apply: shift_bounded_ord => t; apply: h.
Qed.

Lemma history_bounded X normalize n R S T (stat0 stat1 : X -> 'M[F]_n)
    (updates : seq ((nat -> nat -> nat -> X) * (F * F))) :
  List.Forall (fun u => [/\ 0 <= u.2.1, 0 <= u.2.2 & forall r s t, (r < R)%N -> (s < S)%N -> (t < T)%N ->
    shift_bounded (stat0 (u.1 r s t)) (stat1 (u.1 r s t))]) updates ->
  shift_bounded (covariance_after normalize stat0 R S T updates)
                (covariance_after normalize stat1 R S T updates).
Proof.
move=> h; rewrite /covariance_after.
have : forall (a b : mav F n n), m_weight a = m_weight b -> 0 <= m_weight a -> shift_bounded (m_var a) (m_var b) ->
  let f stat (a : mav F n n) (u : (nat -> nat -> nat -> X) * (F * F)) :=
    mav_add a (compute_total_new_cov R S T (fun r s t => stat (u.1 r s t))) u.2.1 u.2.2 in
  shift_bounded (mav_value normalize (foldl (f stat0) a updates)) (mav_value normalize (foldl (f stat1) b updates)).
  elim: h => [|u l [d0 w0 hu] _ IH] a b hw a0 hab /=.
    rewrite /mav_value; case: normalize => //; rewrite -hw; apply: shift_boundedZ => //.
    by rewrite invr_ge0.
  apply: IH => /=; first by rewrite hw.
    by rewrite addr_ge0 // mulr_ge0.
  apply: shift_boundedD; apply: shift_boundedZ => //; exact: total_bounded.
by apply => //=; exact: shift_bounded0.
Qed.
End Cov.
