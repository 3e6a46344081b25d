(** What the second series option computes. *)
From mathcomp Require Import all_ssreflect all_algebra.
From Verif.Base Require Import Py.
From Verif.Blocks Require Import Model Spec MatProofs PsdProofs EigProofs FactorProofs.
From Verif.Series Require Import Model Spec QuantProofs Opt1Proofs.
Set Implicit Arguments.
Unset Strict Implicit.
Unset Printing Implicit Defensive.
Import GRing.Theory Num.Theory Order.TTheory.
Local Open Scope ring_scope.

Section Opt2.
Variable F : rcfType.

(** The pair of covariances [V0], [V1] through the symmetric root [Shi] of [V0], whose inverse
    is [Sh], the contraction [Psi] and the eigenvectors of [Psi^T Psi]. *)
Record normal_form n (V0 V1 Sh Shi Psi E : 'M[F]_n) (mu : 'rV[F]_n) : Prop := NormalForm {
  nf_inv : Sh *m Shi = 1%:M;
  nf_sym : Shi^T = Shi;
  nf_V0 : V0 = Shi *m Shi;
  nf_V1 : V1 = Shi *m Psi *m Shi;
  nf_orth : E *m E^T = 1%:M;
  nf_gram : Psi^T *m Psi = E *m diag_mx mu *m E^T;
  nf_mu : forall i, 0 <= mu 0 i < 1 }.

Section One.
Variables (n : nat) (V0 V1 Sh Shi Psi E : 'M[F]_n) (mu : 'rV[F]_n).
Hypothesis nf : normal_form V0 V1 Sh Shi Psi E mu.

Lemma nf_inv' : Shi *m Sh = 1%:M.
Proof. exact: mulmx1C (nf_inv nf). Qed.
Lemma nf_symSh : Sh^T = Sh.
Proof.
have h : Shi *m Sh^T = 1%:M by rewrite -(nf_sym nf) -trmx_mul (nf_inv nf) trmx1.
by rewrite -[LHS]mul1mx -(nf_inv nf) -mulmxA h mulmx1.
Qed.
Lemma nf_orth' : E^T *m E = 1%:M. Proof. exact: orth_unit (nf_orth nf). Qed.

(** The norm of [Psi x]. *)
Lemma psi_norm (x : 'cV[F]_n) : bf 1%:M (Psi *m x) (Psi *m x) = \sum_i mu 0 i * (E^T *m x) i 0 ^+ 2.
Proof.
rewrite bf_congr mulmx1 (nf_gram nf) /bf !mulmxA.
have -> : x^T *m E = (E^T *m x)^T by rewrite trmx_mul trmxK.
rewrite -[_ *m diag_mx mu *m E^T]mulmxA -[_ *m (diag_mx mu *m E^T) *m x]mulmxA -[diag_mx mu *m E^T *m x]mulmxA.
by rewrite mul_diag_mx !mxE; apply: eq_bigr => i _; rewrite !mxE expr2 mulrCA.
Qed.
Lemma id_norm (x : 'cV[F]_n) : bf 1%:M x x = \sum_i (E^T *m x) i 0 ^+ 2.
Proof.
have h : x = E *m (E^T *m x) by rewrite mulmxA (nf_orth nf) mul1mx.
rewrite {1 2}h bf_congr mulmx1 nf_orth' /bf mulmx1 !mxE.
by apply: eq_bigr => i _; rewrite !mxE expr2.
Qed.
Lemma psi_fix (x : 'cV[F]_n) : Psi *m x = x -> x = 0.
Proof.
move=> h; have := psi_norm x; rewrite h id_norm => /eqP; rewrite -subr_eq0 -sumrB => /eqP hs.
have z : E^T *m x = 0.
  apply/colP => i; rewrite [RHS]mxE.
  have := psumr_eq0P _ hs; move=> hz.
  have := hz _ i isT => hzi.
  have hmu := nf_mu nf i; case/andP: hmu => m0 m1.
  have : (1 - mu 0 i) * (E^T *m x) i 0 ^+ 2 = 0.
    rewrite mulrBl mul1r; apply: hzi => j _.
    have /andP [q0 q1] := nf_mu nf j.
    by rewrite subr_ge0 ler_pimull ?sqr_ge0 // ltW.
  move/eqP; rewrite mulf_eq0 subr_eq0 eq_sym (lt_eqF m1) /= sqrf_eq0 => /eqP //.
by rewrite -[x]mul1mx -(nf_orth nf) -mulmxA z mulmx0.
Qed.
Lemma psi_unit : 1%:M - Psi \in unitmx.
Proof.
rewrite -row_free_unit -kermx_eq0; apply/negPn/negP => hk.
have : ~~ row_free (1%:M - Psi) by rewrite -kermx_eq0.
rewrite row_free_unit -unitmx_tr -row_free_unit -kermx_eq0 => /rowV0Pn [v hv nv].
move/sub_kermxP: hv => hv; case/eqP: nv.
have : Psi *m v^T = v^T.
  apply/eqP; rewrite eq_sym -subr_eq0 -{1}[v^T]mul1mx -mulmxBl.
  by rewrite -[_ *m _]trmxK trmx_mul trmxK hv trmx0.
by move/psi_fix => h; rewrite -[v]trmxK h trmx0.
Qed.
Lemma gram_inv : (1%:M - Psi^T *m Psi) *m (E *m diag_mx (\row_i (1 - mu 0 i)^-1) *m E^T) = 1%:M.
Proof.
rewrite (nf_gram nf) -{1}(nf_orth nf).
have -> : E *m E^T - E *m diag_mx mu *m E^T = E *m diag_mx (\row_i (1 - mu 0 i)) *m E^T.
  rewrite -{1}[E]mulmx1 -mulmxBl -mulmxBr; congr (_ *m _ *m _).
  by apply/matrixP => i j; rewrite !mxE; case: eqP => _; rewrite ?mulr1n ?mulr0n ?subr0.
rewrite !mulmxA -[_ *m E^T *m E]mulmxA nf_orth' mulmx1 -[E *m _ *m _]mulmxA mulmx_diag.
set D := diag_mx _; have -> : D = 1%:M.
  apply/matrixP => i j; rewrite !mxE; case: eqP => _; rewrite ?mulr1n ?mulr0n //.
  have /andP [_ m1] := nf_mu nf i.
  by rewrite mulfV // subr_eq0 eq_sym lt_eqF.
by rewrite mulmx1 (nf_orth nf).
Qed.

(** The sum over all lags. *)
Definition lag_total : 'M[F]_n := Shi *m invmx (1%:M - Psi) *m Shi.
Lemma invV0 : invmx V0 = Sh *m Sh.
Proof.
apply/esym/invmx_unique; rewrite (nf_V0 nf) mulmxA -[_ *m Shi *m Sh]mulmxA nf_inv' mulmx1.
exact: nf_inv'.
Qed.
Lemma V0_unit : V0 \in unitmx.
Proof.
have h : V0 *m (Sh *m Sh) = 1%:M.
  by rewrite (nf_V0 nf) mulmxA -[_ *m Shi *m Sh]mulmxA nf_inv' mulmx1 nf_inv'.
exact: (mulmx1_unit h).1.
Qed.
Lemma stepE : V1 *m invmx V0 = Shi *m Psi *m Sh.
Proof. by rewrite invV0 (nf_V1 nf) mulmxA -[_ *m Shi *m Sh]mulmxA nf_inv' mulmx1. Qed.
Lemma is_lag_sumE W : is_lag_sum V0 V1 W <-> W = lag_total.
Proof.
rewrite /is_lag_sum stepE.
have e W' : (1%:M - Psi) *m (Sh *m W') = Shi <-> W' = V0 + Shi *m Psi *m Sh *m W'.
  have -> : W' = V0 + Shi *m Psi *m Sh *m W' <-> Sh *m W' = Shi + Psi *m (Sh *m W').
    split=> [h|h].
      by rewrite {1}h mulmxDr (nf_V0 nf) !mulmxA (nf_inv nf) !mul1mx.
    rewrite -{1}[W']mul1mx -nf_inv' -mulmxA h mulmxDr (nf_V0 nf) !mulmxA //.
  rewrite mulmxBl mul1mx; split=> [/eqP|/eqP h]; first by rewrite subr_eq => /eqP.
  by apply/eqP; rewrite subr_eq.
split=> [/e h|->].
  rewrite /lag_total -[X in W = _ *m X]h -!mulmxA [invmx _ *m _]mulmxA mulVmx ?psi_unit //.
  by rewrite mul1mx mulmxA nf_inv' mul1mx.
apply/e; rewrite /lag_total !mulmxA -[_ *m Sh *m Shi]mulmxA (nf_inv nf) mulmx1 mulmxV ?psi_unit //.
by rewrite mul1mx.
Qed.

Lemma psi_identity :
  (1%:M - Psi^T) *m (invmx (1%:M - Psi) + (invmx (1%:M - Psi))^T - 1%:M) *m (1%:M - Psi) =
  1%:M - Psi^T *m Psi.
Proof.
have u := psi_unit; have ut : (1%:M - Psi^T) *m (invmx (1%:M - Psi))^T = 1%:M.
  by rewrite -{1}[1%:M]trmx1 -linearB /= -trmx_mul mulVmx // trmx1.
have -> : (1%:M - Psi^T) *m (invmx (1%:M - Psi) + (invmx (1%:M - Psi))^T - 1%:M) *m (1%:M - Psi) =
  (1%:M - Psi^T) + (1%:M - Psi) - (1%:M - Psi^T) *m (1%:M - Psi).
  move: ut u; move: (1%:M - Psi^T) (1%:M - Psi) => A B ut u.
  by rewrite mulmxBr mulmxDr ut mulmx1 mulmxBl mulmxDl -[A *m _ *m _]mulmxA mulVmx // mulmx1 mul1mx.
rewrite mulmxBl !mulmxBr !mul1mx !mulmx1.
set P := Psi^T *m Psi; set Q := Psi^T.
by rewrite opprB addrACA subrr addr0 addrA subrK.
Qed.

Definition step2 : 'M[F]_n := Sh *m (1%:M - Psi) *m (E *m diag_mx (\row_i (1 - mu 0 i)^-1) *m E^T) *m
  (1%:M - Psi^T) *m Sh.
Lemma step2_inverse : (lag_total + lag_total^T - V0) *m step2 = 1%:M.
Proof.
have u := psi_unit; set Y := invmx (1%:M - Psi) + (invmx (1%:M - Psi))^T - 1%:M.
have -> : lag_total + lag_total^T - V0 = Shi *m Y *m Shi.
  rewrite /lag_total !trmx_mul (nf_sym nf) (nf_V0 nf) /Y mulmxBr mulmxBl mulmxDr mulmxDl mulmx1.
  by rewrite mulmxA.
have hB : (1%:M - Psi^T) *m (Y *m (1%:M - Psi)) = 1%:M - Psi^T *m Psi by rewrite mulmxA psi_identity.
have ut : (invmx (1%:M - Psi))^T *m (1%:M - Psi^T) = 1%:M.
  by rewrite -{2}[1%:M]trmx1 -linearB /= -trmx_mul mulmxV // trmx1.
have hY : Y *m (1%:M - Psi) = (invmx (1%:M - Psi))^T *m (1%:M - Psi^T *m Psi).
  by rewrite -hB mulmxA ut mul1mx.
rewrite /step2; set D := E *m diag_mx _ *m E^T; have hD : (1%:M - Psi^T *m Psi) *m D = 1%:M := gram_inv.
clearbody D Y.
rewrite !mulmxA -[_ *m Shi *m Sh]mulmxA nf_inv' mulmx1 -[_ *m Y *m _]mulmxA hY.
rewrite mulmxA -[_ *m _ *m D]mulmxA hD mulmx1 -[_ *m _ *m (1%:M - Psi^T)]mulmxA ut mulmx1.
exact: nf_inv'.
Qed.

(** ** Comparison with the sums over finitely many lags *)
Fixpoint mxpow (M : 'M[F]_n) (d : nat) : 'M[F]_n := if d is d'.+1 then M *m mxpow M d' else 1%:M.
Lemma lag_step d : lag_cov V0 V1 d = Shi *m mxpow Psi d *m Shi.
Proof.
elim: d => [|d IH] /=; first by rewrite mulmx1 (nf_V0 nf).
by rewrite IH stepE !mulmxA -[_ *m Sh *m Shi]mulmxA (nf_inv nf) mulmx1.
Qed.
(** The lags from [d] on. *)
Definition tail_total (d : nat) : 'M[F]_n := Shi *m mxpow Psi d *m invmx (1%:M - Psi) *m Shi.
Lemma tail_step d : tail_total d = lag_cov V0 V1 d + tail_total d.+1.
Proof.
have u := psi_unit; rewrite lag_step /tail_total.
have c : mxpow Psi d.+1 = mxpow Psi d *m Psi.
  elim: d => [|d IH] /=; first by rewrite mulmx1 mul1mx.
  by rewrite -mulmxA -IH.
rewrite c -mulmxDl; congr (_ *m _); rewrite -!mulmxA -mulmxDr; congr (_ *m _).
rewrite -[X in _ = X + _]mulmx1 -mulmxDr; congr (_ *m _).
have h : (1%:M - Psi) *m invmx (1%:M - Psi) = 1%:M by rewrite mulmxV.
by rewrite -[X in _ = X + _]h mulmxBl mul1mx subrK.
Qed.
Lemma total_upto N : lag_total = \sum_(d < N) lag_cov V0 V1 d + tail_total N.
Proof.
elim: N => [|N IH]; first by rewrite big_ord0 add0r /lag_total /tail_total /= mulmx1.
by rewrite IH big_ord_recr /= -addrA -tail_step.
Qed.

Lemma psi_pow_norm m N (x : 'cV[F]_n) : 0 <= m -> (forall i, mu 0 i <= m) ->
  bf 1%:M (mxpow Psi N *m x) (mxpow Psi N *m x) <= m ^+ N * bf 1%:M x x.
Proof.
move=> m0 hm; elim: N => [|N IH] /=; first by rewrite mul1mx expr0 mul1r.
rewrite -mulmxA psi_norm.
apply: (@le_trans _ _ (m * bf 1%:M (mxpow Psi N *m x) (mxpow Psi N *m x))).
  rewrite id_norm mulr_sumr; apply: ler_sum => i _; apply: ler_wpmul2r (hm i); exact: sqr_ge0.
by rewrite exprS -mulrA; apply: ler_wpmul2l.
Qed.
(** All the squares of singular values are at most some [r^2] below one. *)
Lemma rate : exists r, [/\ 0 < r, r < 1 & forall i, mu 0 i <= r ^+ 2].
Proof.
have [m [m0 m1 hm]] : exists m, [/\ 0 < m, m < 1 & forall i, mu 0 i <= m].
  have : forall l : seq 'I_n, exists m, [/\ 0 < m, m < 1 & forall i, i \in l -> mu 0 i <= m].
    elim=> [|i l [m [m0 m1 hm]]].
      by exists 2^-1; split=> //; rewrite ?invr_gt0 ?ltr0n // invf_lt1 ?ltr0n // ltr1n.
    have /andP [q0 q1] := nf_mu nf i.
    exists (Num.max m (mu 0 i)); split; rewrite ?lt_maxr ?lt_maxl ?m0 ?m1 //.
    move=> j; rewrite inE le_maxr => /orP [/eqP -> |/hm ->] //; by rewrite lexx orbT.
  case/(_ (enum 'I_n)) => m [m0 m1 hm]; exists m; split=> // i; apply: hm; exact: mem_enum.
exists (Num.sqrt m); split; [by rewrite sqrtr_gt0| |].
  by rewrite -[X in _ < X]sqrtr1 ltr_sqrt ?ltr01.
by move=> i; rewrite sqr_sqrtr; [exact: hm|exact: ltW].
Qed.
Lemma bf_dot (x y : 'cV[F]_n) : bf 1%:M x y = \sum_i x i 0 * y i 0.
Proof. by rewrite /bf mulmx1 !mxE; apply: eq_bigr => i _; rewrite !mxE. Qed.
Lemma dot_bound t (x y : 'cV[F]_n) : 0 < t ->
  `|bf 1%:M x y| <= t * bf 1%:M x x + t^-1 * bf 1%:M y y.
Proof.
move=> t0; have ti : 0 < t^-1 by rewrite invr_gt0.
rewrite !bf_dot !mulr_sumr -big_split /=; apply: le_trans (ler_norm_sum _ _ _) _.
apply: ler_sum => i _; set a := x i 0; set b := y i 0.
rewrite ler_norml; have st : Num.sqrt t ^+ 2 = t by rewrite sqr_sqrtr ?ltW.
have s0 : Num.sqrt t != 0 by rewrite gt_eqF ?sqrtr_gt0.
set s := Num.sqrt t in st s0.
have e1 : t * (a * a) + t^-1 * (b * b) = (s * a) ^+ 2 + (s^-1 * b) ^+ 2.
  by rewrite !exprMn exprVn st !expr2.
have e2 : a * b = (s * a) * (s^-1 * b) by rewrite mulrACA mulfV // mul1r.
rewrite e1 e2; set p := s * a; set q := s^-1 * b.
have hp : 0 <= p ^+ 2 + q ^+ 2 + p * q.
  have h : 0 <= (p + q) ^+ 2 + (p ^+ 2 + q ^+ 2) by rewrite !addr_ge0 ?sqr_ge0.
  have e : (p + q) ^+ 2 + (p ^+ 2 + q ^+ 2) = 2%:R * (p ^+ 2 + q ^+ 2 + p * q).
    by rewrite !expr2; apply: (id_plus (F_ring F)).
  by rewrite e pmulr_rge0 ?ltr0n in h.
have hm : 0 <= p ^+ 2 + q ^+ 2 - p * q.
  have h : 0 <= (p - q) ^+ 2 + (p ^+ 2 + q ^+ 2) by rewrite !addr_ge0 ?sqr_ge0.
  have e : (p - q) ^+ 2 + (p ^+ 2 + q ^+ 2) = 2%:R * (p ^+ 2 + q ^+ 2 - p * q).
    by rewrite !expr2; apply: (id_minus (F_ring F)).
  by rewrite e pmulr_rge0 ?ltr0n in h.
by apply/andP; split; rewrite -subr_ge0 ?opprK // addrC.
Qed.
Lemma tail_bound : exists r c, [/\ 0 <= r, r < 1, 0 <= c &
  forall N i j, `|tail_total N i j| <= c * r ^+ N].
Proof.
have [r [r0 r1 hr]] := rate; exists r.
pose u i : 'cV[F]_n := Shi *m delta_mx i 0.
pose v j : 'cV[F]_n := invmx (1%:M - Psi) *m Shi *m delta_mx j 0.
have ge0 x : 0 <= bf 1%:M x x by rewrite /bf -/(qf _ _) qf1 sumsq_ge0.
exists (\sum_i bf 1%:M (u i) (u i) + \sum_j bf 1%:M (v j) (v j)); split;
  [exact: ltW|exact: r1|by rewrite addr_ge0 // sumr_ge0|].
move=> N i j; have -> : tail_total N i j = bf 1%:M (u i) (mxpow Psi N *m v j).
  rewrite /bf mulmx1 /u trmx_mul (nf_sym nf) trmx_delta /v !mulmxA -!mulmxA [Shi *m (mxpow _ _ *m _)]mulmxA.
  rewrite [_ *m (invmx _ *m _)]mulmxA [_ *m (Shi *m _)]mulmxA mulmxA -rowE -colE !mxE.
  by rewrite /tail_total.
have rN : 0 < r ^+ N by rewrite exprn_gt0.
apply: le_trans (dot_bound (u i) (mxpow Psi N *m v j) rN) _.
rewrite mulrDl; apply: ler_add.
  rewrite mulrC; apply: ler_wpmul2r; first exact: ltW.
  by rewrite (bigD1 i) //= ler_addl sumr_ge0.
have h := psi_pow_norm N (v j) (sqr_ge0 r) hr.
apply: le_trans (ler_wpmul2l _ h) _; first by rewrite invr_ge0 ltW.
rewrite mulrA -exprM mulnC exprM expr2 mulrA mulVf ?gt_eqF // mul1r mulrC.
apply: ler_wpmul2r; first exact: ltW.
by rewrite (bigD1 j) //= ler_addl sumr_ge0.
Qed.

Local Arguments lag_cov : simpl never.
Lemma sequence_step T : sequence_cov T.+1 V0 V1 =
  sequence_cov T V0 V1 + (\sum_(d < T) lag_cov V0 V1 d.+1 + (\sum_(d < T) lag_cov V0 V1 d.+1)^T + V0).
Proof.
have rv : \sum_(d < T) lag_cov V0 V1 d.+1 = \sum_(s < T) lag_cov V0 V1 (T - s).
  rewrite (reindex_inj rev_ord_inj) /=; apply: eq_bigr => s _.
  by rewrite subnSK.
rewrite /sequence_cov big_ord_recr /=.
have -> : \sum_(s < T.+1) (if (s <= T)%N then lag_cov V0 V1 (T - s) else (lag_cov V0 V1 (s - T))^T) =
  \sum_(d < T) lag_cov V0 V1 d.+1 + V0.
  rewrite rv big_ord_recr /= leqnn subnn /=; congr (_ + _); apply: eq_bigr => s _.
  by rewrite ltnW.
have -> : \sum_(t < T) \sum_(s < T.+1)
    (if (s <= t)%N then lag_cov V0 V1 (t - s) else (lag_cov V0 V1 (s - t))^T) =
  sequence_cov T V0 V1 + (\sum_(d < T) lag_cov V0 V1 d.+1)^T.
  rewrite rv linear_sum -big_split /=; apply: eq_bigr => t _.
  by rewrite big_ord_recr /= leqNgt ltn_ord.
by rewrite -/(sequence_cov T V0 V1) -!addrA; congr (_ + _); rewrite addrCA.
Qed.
Lemma V0_sym : V0^T = V0.
Proof. by rewrite (nf_V0 nf) trmx_mul (nf_sym nf). Qed.
Lemma sequence_total T : T%:R *: (lag_total + lag_total^T - V0) =
  sequence_cov T V0 V1 + \sum_(t < T) (tail_total t.+1 + (tail_total t.+1)^T).
Proof.
elim: T => [|T IH]; first by rewrite scale0r /sequence_cov !big_ord0 addr0.
rewrite -addn1 natrD scalerDl scale1r IH addn1 sequence_step big_ord_recr /= -!addrA; congr (_ + _).
have := total_upto T.+1; rewrite big_ord_recl /=.
have -> : \sum_(i < T) lag_cov V0 V1 (bump 0 i) = \sum_(i < T) lag_cov V0 V1 i.+1 by [].
have -> : lag_cov V0 V1 0 = V0 by [].
move: (\sum_(i < T) lag_cov V0 V1 i.+1) (tail_total T.+1) => L R ->.
rewrite !linearD /= V0_sym.
have z (a b c d e f : 'M[F]_n) : a + (b + c + d + (b + e + f - b)) = c + (e + (b + (a + (d + f)))).
  by apply/matrixP => i j; rewrite !mxE; exact: (id_tot (F_ring F)).
exact: z.
Qed.

(** The matrix inverted differs from the covariance of the sum over [T] times by a matrix that
    does not grow with [T]. *)
Lemma sequence_close : exists c, forall T i j,
  `|(T%:R *: (lag_total + lag_total^T - V0) - sequence_cov T V0 V1) i j| <= c.
Proof.
have [r [c [r0 r1 c0 h]]] := tail_bound; exists (2%:R * c / (1 - r)) => T i j.
rewrite sequence_total addrC addKr summxE.
have d0 : 0 < 1 - r by rewrite subr_gt0.
rewrite ler_pdivl_mulr //; apply: le_trans (ler_wpmul2r (ltW d0) (ler_norm_sum _ _ _)) _.
apply: (@le_trans _ _ ((\sum_(t < T) 2%:R * c * r ^+ t) * (1 - r))).
  apply: (ler_wpmul2r (ltW d0)); apply: ler_sum => t _; rewrite entD [_^T _ _]mxE.
  apply: le_trans (ler_norm_add _ _) _.
  have b k l : `|tail_total t.+1 k l| <= c * r ^+ t.
    apply: le_trans (h _ _ _) _; apply: ler_wpmul2l => //; rewrite exprS ler_pimull ?exprn_ge0 //.
    exact: ltW.
  by rewrite mulr_natl mulr2n mulrDl; apply: ler_add.
rewrite -mulr_sumr -mulrA -[X in _ <= X]mulr1; apply: ler_wpmul2l.
  by rewrite mulr_ge0 ?ler0n.
rewrite mulrC.
have -> : (1 - r) * (\sum_(i < T) r ^+ i) = 1 - r ^+ T.
  elim: T => [|T IH]; first by rewrite big_ord0 mulr0 expr0 subrr.
  by rewrite big_ord_recr /= mulrDr IH mulrBl mul1r -exprS addrA subrK.
by rewrite ler_subl_addr ler_addl exprn_ge0.
Qed.
End One.

Lemma kron_nf k n (A0 A1 SA SiA PsiA EA : 'M[F]_k) a (G0 G1 SG SiG PsiG EG : 'M[F]_n) g :
  normal_form A0 A1 SA SiA PsiA EA a -> normal_form G0 G1 SG SiG PsiG EG g ->
  normal_form (kronecker_product A0 G0) (kronecker_product A1 G1) (kronecker_product SA SG)
    (kronecker_product SiA SiG) (kronecker_product PsiA PsiG) (kronecker_product EA EG)
    (\row_p (a 0 (rm_row p) * g 0 (rm_col p))).
Proof.
move=> [a1 a2 a3 a4 a5 a6 a7] [g1 g2 g3 g4 g5 g6 g7]; split.
- by rewrite kron_mul a1 g1 kron1.
- by rewrite kron_tr a2 g2.
- by rewrite kron_mul -a3 -g3.
- by rewrite !kron_mul -a4 -g4.
- by rewrite kron_tr kron_mul a5 g5 kron1.
- by rewrite -kron_diag !kron_tr !kron_mul -a6 -g6.
- move=> p; rewrite mxE; have /andP [a70 a71] := a7 (rm_row p); have /andP [g70 g71] := g7 (rm_col p).
  by rewrite mulr_ge0 //= mulr_ilt1.
Qed.

Lemma vecB k n (X Y : 'M[F]_(k, n)) : vec (X - Y) = vec X - vec Y.
Proof. by apply/colP => p; rewrite !mxE. Qed.
Lemma vecZ k n c (X : 'M[F]_(k, n)) : vec (c *: X) = c *: vec X.
Proof. by apply/colP => p; rewrite !mxE. Qed.

Lemma option2_vec k n T (qA : option2_quants F k) (qG : option2_quants F n) (X : 'M[F]_(k, n)) :
  (forall i j, q2_mu qG 0 i * q2_mu qA 0 j < 1) ->
  let P := kronecker_product (q2_P qA) (q2_P qG) in
  let K := kronecker_product (q2_K qA) (q2_K qG) in
  vec (series_option2 T qA qG X^T)^T =
  T%:R^-1 *: ((1%:M - P^T) *m K *m
    diag_mx (\row_p (1 - q2_mu qA 0 (rm_row p) * q2_mu qG 0 (rm_col p))^-1) *m K^T *m
    (1%:M - P) *m vec X).
Proof.
move=> lt P K; rewrite /series_option2 linearZ /= vecZ; congr (_ *: _).
set Z1 := X^T - _; have h1 : vec Z1^T = (1%:M - P) *m vec X.
  rewrite /Z1 linearB /= !trmx_mul !trmxK vecB mulmxBl mul1mx; congr (_ - _).
  by rewrite /P vec_mul.
set Z2 := (q2_K qG)^T *m _; have h2 : vec Z2^T = K^T *m vec Z1^T.
  by rewrite /Z2 !trmx_mul !trmxK /K kron_tr vec_mul trmxK.
set Z3 := \matrix_(i, j) _; have h3 : vec Z3^T =
  diag_mx (\row_p (1 - q2_mu qA 0 (rm_row p) * q2_mu qG 0 (rm_col p))^-1) *m vec Z2^T.
  apply/colP => p; rewrite mul_diag_mx !mxE.
  have := lt (rm_col p) (rm_row p); rewrite -subr_gt0 => l0.
  by rewrite (gt_eqF l0) addr0 mulrC [q2_mu qG _ _ * _]mulrC.
set Z4 := q2_K qG *m _; have h4 : vec Z4^T = K *m vec Z3^T.
  by rewrite /Z4 !trmx_mul !trmxK /K vec_mul.
clearbody Z4.
rewrite linearB /= !trmx_mul !trmxK vecB -!mulmxA -h1 -h2 -h3 -h4 mulmxBl mul1mx; congr (_ - _).
by rewrite /P kron_tr vec_mul trmxK mulmxA.
Qed.

Lemma option2_solves k n T (qA : option2_quants F k) (qG : option2_quants F n) (X : 'M[F]_(k, n))
    (A0 A1 SA SiA PsiA EA : 'M[F]_k) (G0 G1 SG SiG PsiG EG : 'M[F]_n) W :
  normal_form A0 A1 SA SiA PsiA EA (q2_mu qA) -> normal_form G0 G1 SG SiG PsiG EG (q2_mu qG) ->
  q2_P qA = SiA *m PsiA^T *m SA -> q2_P qG = SiG *m PsiG^T *m SG ->
  q2_K qA = SA *m EA -> q2_K qG = SG *m EG -> (0 < T)%N ->
  is_lag_sum (kronecker_product A0 G0) (kronecker_product A1 G1) W ->
  (T%:R *: (W + W^T - kronecker_product A0 G0)) *m vec (series_option2 T qA qG X^T)^T = vec X.
Proof.
move=> hA hG pA pG kA kG T0 hW; have nf := kron_nf hA hG.
move/(is_lag_sumE nf): hW => ->.
rewrite option2_vec; last first.
  move=> i j; have /andP [a0 a1] := nf_mu hA j; have /andP [g0 g1] := nf_mu hG i.
  by rewrite mulr_ilt1.
have T1 : T%:R != 0 :> F by rewrite pnatr_eq0 -lt0n.
rewrite -scalemxAl -scalemxAr scalerA mulfV // scale1r mulmxA.
rewrite -[RHS]mul1mx -[X in _ = X *m _](step2_inverse nf); congr (_ *m _ *m _).
rewrite pA pG kA kG -!kron_mul -!kron_tr.
have sSh := nf_symSh nf; have sShi := nf_sym nf; have i1 := nf_inv nf; have i2 := nf_inv' nf.
rewrite /step2.
have -> : \row_i (1 - (\row_p (q2_mu qA 0 (rm_row p) * q2_mu qG 0 (rm_col p))) 0 i)^-1 =
  \row_p (1 - q2_mu qA 0 (rm_row p) * q2_mu qG 0 (rm_col p))^-1.
  by apply/rowP => p; rewrite !mxE.
move: sSh sShi i1 i2; set Sh := kronecker_product SA SG; set Shi := kronecker_product SiA SiG.
set Psi := kronecker_product PsiA PsiG; set E := kronecker_product EA EG; set D := diag_mx _.
move: Sh Shi Psi E D => Sh Shi Psi E D sSh sShi i1 i2.
have e1 : (1%:M - (Shi *m Psi^T *m Sh)^T) *m Sh = Sh *m (1%:M - Psi).
  rewrite !trmx_mul trmxK sSh sShi mulmxBl mul1mx mulmxBr mulmx1; congr (_ - _).
  by rewrite -!mulmxA i2 mulmx1.
have e2 : Sh *m (1%:M - Shi *m Psi^T *m Sh) = (1%:M - Psi^T) *m Sh.
  by rewrite mulmxBr mulmx1 mulmxBl mul1mx !mulmxA i1 mul1mx.
rewrite [(Sh *m E)^T]trmx_mul sSh [_ *m (Sh *m E)]mulmxA e1 !mulmxA -[_ *m Sh *m (1%:M - Shi *m _ *m _)]mulmxA e2.
by rewrite !mulmxA.
Qed.

Section Iteration.
Variable eigh : forall n, 'M[F]_n -> 'rV[F]_n * 'M[F]_n.
Variable svd : forall n, 'M[F]_n -> 'rV[F]_n * 'M[F]_n * 'M[F]_n.
Variable pow : F -> F -> F.
Hypothesis eighP : eigh_contract eigh.
Hypothesis svdP : svd_contract svd.
Hypothesis powP : power_laws pow.

Lemma option2_nf clip n (C0 C1 : 'M[F]_n) d :
  psd C0 -> 0 < d -> clip <= 0 -> shift_bounded C0 C1 ->
  let q := option2_iteration svd pow (eigen_of eigh clip C0) C1 d in
  exists S Si Psi E, [/\ normal_form (C0 + d *: 1%:M) C1 S Si Psi E (q2_mu q),
    q2_P q = Si *m Psi^T *m S & q2_K q = S *m E].
Proof.
move=> hC0 d0 hc hb /=.
have [hS h1] := invsqrt_spec eighP powP hC0 d0 hc; rewrite -/(eigen_of eigh clip C0) in hS h1.
rewrite /option2_iteration; set S := invsqrt_cov _ _ _ in hS h1 *.
have := svdP (S *m C1 *m S); case: (svd _) => [[s U] E] [hU hE s0 hM] /=.
have lt := singular_lt1 hb d0 hS h1 hU hE hM; have hU' := orth_unit hU.
set C0d := C0 + _ in h1 *.
have i1 : S *m (C0d *m S) = 1%:M by rewrite mulmxA.
have i2 : C0d *m S *m S = 1%:M := mulmx1C i1.
have i3 : (C0d *m S)^T = C0d *m S.
  rewrite -[LHS]mul1mx -i2 -[_ *m S *m S *m _]mulmxA.
  have -> : S *m (C0d *m S)^T = 1%:M by rewrite -{1}hS -trmx_mul i2 trmx1.
  by rewrite mulmx1.
exists S, (C0d *m S), (S *m C1 *m S), E; split.
- split=> //.
  + by rewrite -mulmxA i1 mulmx1.
  + rewrite !mulmxA i2 mul1mx -[_ *m S *m C0d]mulmxA -[_ *m (S *m C0d) *m S]mulmxA.
    by rewrite -[S *m C0d *m S]mulmxA i1 mulmx1.
  + rewrite hM !trmx_mul trmxK tr_diag_mx !mulmxA -[_ *m U^T *m U]mulmxA hU' mulmx1.
    rewrite -[E *m diag_mx s *m diag_mx s]mulmxA mulmx_diag; congr (_ *m diag_mx _ *m _); apply/rowP => i.
    rewrite !mxE; apply/esym/min_idPl; rewrite exprn_ile1 // ltW //.
  + move=> i; rewrite mxE le_minr sqr_ge0 ler01 /= lt_minl; apply/orP; left.
    by rewrite expr_lt1.
- by rewrite !trmx_mul hS !mulmxA i2 mul1mx.
- by [].
Qed.
End Iteration.
End Opt2.
