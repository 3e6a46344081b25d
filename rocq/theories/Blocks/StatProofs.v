From mathcomp Require Import all_ssreflect all_algebra.
From Verif.Base Require Import Py.
From Verif.Blocks Require Import Model Spec MatProofs PsdProofs EigProofs FactorProofs ServeProofs BlockProofs.
Set Implicit Arguments.
Unset Strict Implicit.
Unset Printing Implicit Defensive.
Import GRing.Theory Num.Theory Order.TTheory.
Local Open Scope ring_scope.

Section Damp.
Variable F : rcfType.

Lemma psd_root n (M : 'M[F]_n) : psd M -> exists B : 'M[F]_n, M = B *m B^T.
Proof.
move=> hM; have [[d V] hd] := spectral (proj1 hM); have /= pos := psd_eigval hM hd.
case: hd => /= _ ->; exists (V *m diag_mx (\row_i Num.sqrt (d 0 i))).
rewrite trmx_mul tr_diag_mx !mulmxA -[V *m _ *m diag_mx _]mulmxA mulmx_diag.
by congr (_ *m diag_mx _ *m _); apply/rowP => i; rewrite !mxE -expr2 sqr_sqrtr.
Qed.
Lemma psd_kron m n (A : 'M[F]_m) (G : 'M[F]_n) : psd A -> psd G -> psd (kronecker_product A G).
Proof.
move=> /psd_root [B ->] /psd_root [D ->].
have -> : kronecker_product (B *m B^T) (D *m D^T) = kronecker_product B D *m (kronecker_product B D)^T.
  by rewrite kron_tr kron_mul.
exact: psd_gram.
Qed.
Lemma psd1 n : psd (1%:M : 'M[F]_n).
Proof. by rewrite -[1%:M]scale1r; apply: psd_scalar; exact: ler01. Qed.
Lemma psd_diag_ge0 n (A : 'M[F]_n) i : psd A -> 0 <= A i i.
Proof. by move=> [_ /(_ (delta_mx i 0))]; rewrite trmx_delta -rowE -colE !mxE. Qed.
Lemma psd_trace n (A : 'M[F]_n) : psd A -> 0 <= \tr A.
Proof. by move=> h; apply: sumr_ge0 => i _; exact: psd_diag_ge0. Qed.

Variable pow : F -> F -> F.

Lemma pi_total m n (A : linop F m) (G : linop F n) : psd (lo_dense A) -> psd (lo_dense G) ->
  exists pi, compute_pi_tracenorm A G = Ok pi /\ 0 < pi /\
   (lo_trace A * n%:R * (lo_trace G * m%:R) != 0 -> pi ^+ 2 = lo_trace A * n%:R / (lo_trace G * m%:R)) /\
   (lo_trace A * n%:R * (lo_trace G * m%:R) = 0 -> pi = 1).
Proof.
move=> hA hG; rewrite /compute_pi_tracenorm.
have l0 : 0 <= lo_trace A * n%:R by rewrite mulr_ge0 ?ler0n // lo_traceE psd_trace.
have r0 : 0 <= lo_trace G * m%:R by rewrite mulr_ge0 ?ler0n // lo_traceE psd_trace.
case: ifP => h.
  by exists 1; split=> //; split; [exact: ltr01 | split=> //; rewrite h].
move: (h) => /negbT; rewrite mulf_eq0 negb_or => /andP[nl nr].
have l1 : 0 < lo_trace A * n%:R by rewrite lt_neqAle eq_sym nl.
have r1 : 0 < lo_trace G * m%:R by rewrite lt_neqAle eq_sym nr.
rewrite r1; eexists; split; first reflexivity.
split; first by rewrite sqrtr_gt0 divr_gt0.
split; first by move=> _; rewrite sqr_sqrtr // ltW // divr_gt0.
by move=> e; rewrite e eqxx in h.
Qed.

Notation normalised := (normalised pow).

Lemma damping_split pt power m n (A : linop F m) (G : linop F n) damping norm :
  psd (lo_dense A) -> psd (lo_dense G) -> 0 < normalised power damping norm ->
  exists a g, setup_damping pow pt power A G damping norm = Ok (a, g) /\
    [/\ 0 < a, 0 < g & a * g = normalised power damping norm].
Proof.
move=> hA hG; have -> : normalised power damping norm =
   match norm with Some r => normalize_damping pow power damping r | None => damping end.
  by case: norm => //= r; rewrite /normalize_damping; case: eqP.
rewrite /setup_damping; set d := match norm with Some _ => _ | None => _ end => d0.
have s0 : 0 < Num.sqrt d by rewrite sqrtr_gt0.
have sd : Num.sqrt d * Num.sqrt d = d by rewrite -expr2 sqr_sqrtr // ltW.
case: pt => /=; last by do 2 eexists; split; [reflexivity | split].
have [pi [-> [p0 _]]] := pi_total hA hG; do 2 eexists; split; first reflexivity.
split; [exact: mulr_gt0 | exact: divr_gt0 |].
by rewrite mulrACA divff ?gt_eqF // mulr1.
Qed.

Lemma damping_values pt power m n (A : linop F m) (G : linop F n) damping norm a g :
  psd (lo_dense A) -> psd (lo_dense G) -> 0 < normalised power damping norm ->
  setup_damping pow pt power A G damping norm = Ok (a, g) ->
  [/\ pt = PiOff -> a = g,
      \tr (lo_dense A) = 0 \/ \tr (lo_dense G) = 0 -> a = g,
      (0 < m)%N -> (0 < n)%N -> \tr (lo_dense A) / m%:R = \tr (lo_dense G) / n%:R -> a = g
    & pt = PiTracenorm -> (0 < m)%N -> (0 < n)%N -> \tr (lo_dense A) <> 0 -> \tr (lo_dense G) <> 0 ->
      a / g = (\tr (lo_dense A) / m%:R) / (\tr (lo_dense G) / n%:R)].
Proof.
move=> hA hG; have -> : normalised power damping norm =
   match norm with Some r => normalize_damping pow power damping r | None => damping end.
  by case: norm => //= r; rewrite /normalize_damping; case: eqP.
rewrite /setup_damping; set d := match norm with Some _ => _ | None => _ end => d0.
have s0 : 0 < Num.sqrt d by rewrite sqrtr_gt0.
case: pt => /=; last by case=> <- <-.
have [pi [-> [p0 [h1 h2]]]] := pi_total hA hG => -[<- <-].
have pi1 : pi ^+ 2 = 1 -> pi = 1.
  by move/eqP; rewrite -[X in _ == X](expr1n _ 2) eqr_expn2 ?ltW ?ltr01 // => /eqP.
split=> //.
- by move=> ht; rewrite h2 ?divr1 ?mulr1 // !lo_traceE; case: ht => ->; rewrite !mul0r ?mulr0.
- move=> m0 n0 e; suff -> : pi = 1 by rewrite mulr1 divr1.
  have [z|nz] := eqVneq (lo_trace A * n%:R * (lo_trace G * m%:R)) 0; first exact: h2.
  apply: pi1; rewrite h1 // !lo_traceE.
  have mz : m%:R != 0 :> F by rewrite pnatr_eq0 -lt0n.
  have nz' : n%:R != 0 :> F by rewrite pnatr_eq0 -lt0n.
  move: nz; rewrite !lo_traceE mulf_eq0 negb_or => /andP[_ gz].
  have -> : \tr (lo_dense A) * n%:R = \tr (lo_dense G) * m%:R.
    by rewrite -[\tr (lo_dense A)](mulfVK mz) e mulrAC mulfVK.
  by rewrite divff.
- move=> _ m0 n0 /eqP ta /eqP tg.
  have mz : m%:R != 0 :> F by rewrite pnatr_eq0 -lt0n.
  have nz' : n%:R != 0 :> F by rewrite pnatr_eq0 -lt0n.
  have -> : Num.sqrt d * pi / (Num.sqrt d / pi) = pi ^+ 2.
    by rewrite invfM invrK mulrACA divff ?gt_eqF // mul1r expr2.
  rewrite h1 ?lo_traceE ?mulf_neq0 //.
  by rewrite !invfM invrK [LHS]mulrACA [RHS]mulrACA; congr (_ * _); exact: mulrC.
Qed.

Lemma damping_dominates m n (A : 'M[F]_m) (G : 'M[F]_n) a g K KD :
  psd A -> psd G -> 0 <= a -> 0 <= g -> is_kron A G K ->
  is_kron (A + a *: 1%:M) (G + g *: 1%:M) KD ->
  psd (KD - (K + (a * g) *: 1%:M)).
Proof.
move=> hA hG a0 g0 /is_kron_unique -> /is_kron_unique ->.
have -> : kronecker_product (A + a *: 1%:M) (G + g *: 1%:M) -
    (kronecker_product A G + (a * g) *: 1%:M) =
    g *: kronecker_product A 1%:M + a *: kronecker_product 1%:M G.
  rewrite kronDl !kronDr !kronZl !kronZr kron1 scalerA -!addrA.
  set x := kronecker_product A G; set y := g *: _; set z := a *: _; set w := (a * g) *: _.
  rewrite opprD addrCA [_ + (- x - w)]addrCA; rewrite !addrA.
  by rewrite addrK -[y + x + z]addrA [x + z]addrC addrA addrK.
by apply: psdD; apply: psdZ => //; apply: psd_kron => //; exact: psd1.
Qed.
End Damp.

Section Stats.
Variable F : rcfType.

(** * Means *)
Definition avg X m n (f : X -> 'M[F]_(m, n)) (l : seq X) : 'M[F]_(m, n) :=
  (size l)%:R^-1 *: \sum_(x <- l) f x.

Lemma avg_eq X m n (f g : X -> 'M[F]_(m, n)) l : (forall x, f x = g x) -> avg f l = avg g l.
Proof. by move=> h; congr (_ *: _); apply: eq_bigr => x _. Qed.
Lemma avg_map X Y m n (f : Y -> 'M[F]_(m, n)) (h : X -> Y) l : avg f (map h l) = avg (f \o h) l.
Proof. by rewrite /avg size_map big_map. Qed.
Lemma compute_covE n (rows : seq 'rV[F]_n) : compute_cov rows = avg (fun x => x^T *m x) rows.
Proof.
rewrite /compute_cov /avg /=; set c := _%:R^-1 *: _.
have -> : c^T = c.
  rewrite /c linearZ /= linear_sum /=; congr (_ *: _); apply: eq_bigr => x _.
  by rewrite trmx_mul trmxK.
by rewrite -mulr2n -scaler_nat scalerA mulVf ?scale1r // pnatr_eq0.
Qed.

Lemma size_flatten_eq X (ls : seq (seq X)) b : (forall l, List.In l ls -> size l = b) ->
  size (flatten ls) = (size ls * b)%N.
Proof.
elim: ls => //= l ls IH h; rewrite size_cat h ?IH ?mulSn //; last by left.
by move=> l' hl; apply: h; right.
Qed.
Lemma sum_flatten X m n (f : X -> 'M[F]_(m, n)) ls :
  \sum_(x <- flatten ls) f x = \sum_(l <- ls) \sum_(x <- l) f x.
Proof. by elim: ls => [|l ls IH] /=; rewrite ?big_nil // big_cat big_cons IH. Qed.
Lemma avg_flatten X m n (f : X -> 'M[F]_(m, n)) ls b : (forall l, List.In l ls -> size l = b) ->
  avg f (flatten ls) = avg (avg f) ls.
Proof.
move=> h; rewrite /avg (size_flatten_eq h) natrM invfM -scalerA sum_flatten scaler_sumr.
congr (_ *: _); elim: ls h => [|l ls IH] h; first by rewrite !big_nil.
rewrite !big_cons h; last by left.
by rewrite IH // => l' hl; apply: h; right.
Qed.

(** The concatenation of the towers of all replicas. *)
Lemma In_iota_map X (g : nat -> X) k l : List.In l [seq g t | t <- iota 0 k] ->
  exists t, (t < k)%N /\ l = g t.
Proof.
have h i : (i <= k)%N -> List.In l [seq g t | t <- iota (k - i) i] -> exists t, (t < k)%N /\ l = g t.
  elim: i => //= i IH hi [<-|hl].
    by exists (k - i.+1)%N; rewrite -subSn // subSS leq_subr.
  by apply: IH; [exact: ltnW | rewrite -subSn // in hl].
by move=> hl; apply: (h k) => //; rewrite subnn.
Qed.

Lemma avg_iota X m n (f : X -> 'M[F]_(m, n)) (g : nat -> X) k :
  avg f [seq g t | t <- iota 0 k] = k%:R^-1 *: \sum_(t < k) f (g t).
Proof.
rewrite /avg size_map size_iota big_map -[iota 0 k](_ : index_iota 0 k = _) ?big_mkord //.
by rewrite /index_iota subn0.
Qed.

Lemma total_avg X m n (f : X -> 'M[F]_(m, n)) R S T (data : nat -> nat -> nat -> seq X) b :
  (forall r s t, (r < R)%N -> (s < S)%N -> (t < T)%N -> size (data r s t) = b) ->
  compute_total_new_cov R S T (fun r s t => avg f (data r s t)) =
  \sum_(s < S) avg f (all_data R T (fun r t => data r s t)).
Proof.
move=> hb; rewrite /compute_total_new_cov.
transitivity (\sum_(s < S) (R%:R^-1 *: \sum_(r < R) (T%:R^-1 *: \sum_(t < T) avg f (data r s t)))).
  rewrite -[RHS]scaler_sumr [in RHS]exchange_big /=; congr (_ *: _); apply: eq_bigr => r _.
  by rewrite scaler_sumr.
apply: eq_bigr => s _; rewrite /all_data (@avg_flatten _ _ _ _ _ (T * b)%N); last first.
  move=> l hl.
  have [r [hr ->]] := @In_iota_map _ (fun r => flatten [seq data r s t | t <- iota 0 T]) _ _ hl.
  rewrite (@size_flatten_eq _ _ b) ?size_map ?size_iota // => l' hl'.
  by have [t [ht ->]] := @In_iota_map _ (fun t => data r s t) _ _ hl'; rewrite hb.
rewrite (avg_iota (avg f) (fun r => flatten [seq data r s t | t <- iota 0 T])).
congr (_ *: _); apply: eq_bigr => r _.
rewrite (@avg_flatten _ _ _ _ _ b); last first.
  by move=> l hl; have [t [ht ->]] := @In_iota_map _ (fun t => data r s t) _ _ hl; rewrite hb.
by rewrite (avg_iota (avg f) (fun t => data r s t)).
Qed.

Lemma total_ext R S T m n (c c' : nat -> nat -> nat -> 'M[F]_(m, n)) :
  (forall r s t, c r s t = c' r s t) ->
  compute_total_new_cov R S T c = compute_total_new_cov R S T c'.
Proof. by move=> h; congr (_ *: _); apply: eq_bigr => r _; congr (_ *: _); apply: eq_bigr => s _; apply: eq_bigr. Qed.

(** * Positive semidefiniteness *)
Lemma psd_avg X n (f : X -> 'M[F]_n) l : (forall x, psd (f x)) -> psd (avg f l).
Proof. by move=> h; apply: psdZ; [rewrite invr_ge0 ler0n | apply: psd_sum]. Qed.
Lemma compute_cov_psd n (rows : seq 'rV[F]_n) : psd (compute_cov rows).
Proof. by rewrite compute_covE; apply: psd_avg => x; exact: psd_outer. Qed.
Lemma total_psd R S T n (c : nat -> nat -> nat -> 'M[F]_n) : (forall r s t, psd (c r s t)) ->
  psd (compute_total_new_cov R S T c).
Proof.
move=> h; apply: psdZ; first by rewrite invr_ge0 ler0n.
apply: psd_sum => r; apply: psdZ; first by rewrite invr_ge0 ler0n.
by apply: psd_sum => s; apply: psd_sum.
Qed.

Lemma mav_psd normalize n (l : seq ('M[F]_n * (F * F))) :
  List.Forall (fun u => [/\ psd u.1, 0 <= u.2.1 & 0 <= u.2.2]) l ->
  psd (mav_value normalize (foldl (fun a u => mav_add a u.1 u.2.1 u.2.2) (mav_init F n n) l)).
Proof.
have gen : forall a : mav F n n, psd (m_var a) -> 0 <= m_weight a ->
  List.Forall (fun u : 'M[F]_n * (F * F) => [/\ psd u.1, 0 <= u.2.1 & 0 <= u.2.2]) l ->
  psd (mav_value normalize (foldl (fun a u => mav_add a u.1 u.2.1 u.2.2) a l)).
  elim: l => [|[x [d w]] l IH] a ha hw h /=.
    by rewrite /mav_value; case: normalize => //; apply: psdZ => //; rewrite invr_ge0.
  inversion h as [|u l' [h1 h2 h3] h4]; subst; apply: IH => //=.
    by apply: psdD; apply: psdZ.
  by rewrite addr_ge0 // mulr_ge0.
by move=> h; apply: gen => //=; [exact: psd0].
Qed.

(** The mean-centred second moment. *)
Lemma schur_mean c (S : 'M[F]_(c + 1)) : psd S -> drsubmx S = 1%:M ->
  psd (ulsubmx S - ursubmx S *m (ursubmx S)^T).
Proof.
move=> [hs hp] hd; have hdl : dlsubmx S = (ursubmx S)^T by rewrite trmx_ursub hs.
split=> [|x].
  by rewrite linearB /= trmx_mul trmxK trmx_ulsub hs.
pose t := - ((ursubmx S)^T *m x).
have := hp (col_mx x t); rewrite -{1}[S]submxK tr_col_mx mul_row_block mul_row_col hdl hd.
have ht : t^T = - (x^T *m ursubmx S) by rewrite /t linearN /= trmx_mul trmxK.
rewrite ht mulmx1 addrN mul0mx addr0 mulNmx mulmxBr.
by rewrite -!mulmxA.
Qed.
End Stats.
