(** Proofs for the embedding property. *)
From mathcomp Require Import all_ssreflect all_algebra.
From Verif.Base Require Import Py.
From Verif.Blocks Require Import Model Spec MatProofs PsdProofs EigProofs FactorProofs ServeProofs BlockProofs
  StatProofs SuaProofs EndProofs EmbedModel EmbedSpec.
Set Implicit Arguments.
Unset Strict Implicit.
Unset Printing Implicit Defensive.
Import GRing.Theory Num.Theory Order.TTheory.
Local Open Scope ring_scope.

Section Embed.
Variable F : rcfType.

Lemma is_one_hotE n i (x : 'rV[F]_n) : is_one_hot i x -> x = one_hot F n i.
Proof. by move=> h; apply/rowP => j; rewrite h mxE; case: eqP. Qed.
Lemma one_hot_ok n i : is_one_hot i (one_hot F n i).
Proof. by move=> j; rewrite mxE; case: eqP. Qed.
Lemma one_hotsE n ids (rows : seq 'rV[F]_n) : one_hots ids rows -> rows = [seq one_hot F n i | i <- ids].
Proof. by elim=> // i x is_ xs /is_one_hotE -> _ ->. Qed.
Lemma one_hots_ok n ids : one_hots ids [seq one_hot F n i | i <- ids].
Proof. by elim: ids => [|i ids IH]; constructor => //; exact: one_hot_ok. Qed.
Lemma by_useE n ids (rows : seq (seq 'rV[F]_n)) : one_hots_by_use ids rows ->
  rows = [seq [seq one_hot F n i | i <- u] | u <- ids].
Proof. by elim=> // i x is_ xs /one_hotsE -> _ ->. Qed.

(** The outer product of a one-hot row is the diagonal matrix of that row. *)
Lemma outer_one_hot n i : (one_hot F n i)^T *m one_hot F n i = diag_mx (one_hot F n i).
Proof.
apply/matrixP => r c; rewrite !mxE big_ord1 !mxE; case: (eqVneq r c) => [->|ne] /=.
  by case: (_ == _); rewrite ?mul1r ?mul0r ?mulr1n.
rewrite mulr0n; case: eqP => [e1|]; last by rewrite mul0r.
case: eqP => [e2|]; last by rewrite mulr0.
by case/eqP: ne; apply/val_inj; rewrite /= e1 e2.
Qed.
Lemma diag_sum n I (r : seq I) (f : I -> 'rV[F]_n) : diag_mx (\sum_(i <- r) f i) = \sum_(i <- r) diag_mx (f i).
Proof. exact: raddf_sum. Qed.
Lemma diagZ n a (d : 'rV[F]_n) : diag_mx (a *: d) = a *: diag_mx d.
Proof. exact: linearZ. Qed.

Lemma stat_exact n ids : fc_new_cov [seq one_hot F n i | i <- ids] = diag_mx (diagkron_new_cov_sparse F n ids).
Proof.
rewrite /fc_new_cov compute_covE /avg /diagkron_new_cov_sparse diagZ diag_sum size_map big_map.
by congr (_ *: _); apply: eq_bigr => i _; exact: outer_one_hot.
Qed.
Lemma stat_dense_diag n ids : diagkron_new_cov [seq one_hot F n i | i <- ids] = diagkron_new_cov_sparse F n ids.
Proof.
rewrite /diagkron_new_cov /diagkron_new_cov_sparse size_map big_map; congr (_ *: _); apply: eq_bigr => i _.
by apply/rowP => j; rewrite !mxE; case: (_ == _); rewrite ?expr1n ?expr0n.
Qed.
Lemma stat_frequency n ids (j : 'I_n) : diagkron_new_cov_sparse F n ids 0 j = frequency F ids j.
Proof.
rewrite /diagkron_new_cov_sparse /frequency mxE summxE mulrC; congr (_ / _).
elim: ids => [|i ids IH]; first by rewrite big_nil.
by rewrite big_cons IH mxE /= natrD eq_sym.
Qed.

(** * Histories *)
Lemma total_diag n R S T (c : nat -> nat -> nat -> 'rV[F]_n) :
  compute_total_new_cov R S T (fun r s t => diag_mx (c r s t)) = diag_mx (compute_total_new_cov R S T c).
Proof.
rewrite /compute_total_new_cov diagZ diag_sum; congr (_ *: _); apply: eq_bigr => r _.
rewrite diagZ diag_sum; congr (_ *: _); apply: eq_bigr => s _.
by rewrite diag_sum.
Qed.
Lemma total_ext' R S T m n (c c' : nat -> nat -> nat -> 'M[F]_(m, n)) :
  (forall r s t, (r < R)%N -> (s < S)%N -> (t < T)%N -> c r s t = c' r s t) ->
  compute_total_new_cov R S T c = compute_total_new_cov R S T c'.
Proof.
move=> h; rewrite /compute_total_new_cov; congr (_ *: _); apply: eq_bigr => r _; congr (_ *: _).
by apply: eq_bigr => s _; apply: eq_bigr => t _; apply: h.
Qed.

Lemma history_diag n nz R S T us vs : same_histories (n := n) R S T us vs ->
  covariance_after nz (@fc_new_cov F n) R S T vs =
  diag_mx (covariance_after nz (diagkron_new_cov_sparse F n) R S T us).
Proof.
move=> h; rewrite /covariance_after.
set f := foldl _ _ vs; set g := foldl _ _ us.
suff [hv hw] : m_var f = diag_mx (m_var g) /\ m_weight f = m_weight g.
  by rewrite /mav_value hv hw; case: nz; rewrite ?diagZ.
have h0 : m_var (mav_init F n n) = diag_mx (m_var (mav_init F 1 n)) /\
          m_weight (mav_init F n n) = m_weight (mav_init F 1 n) by rewrite /= raddf0.
rewrite /f /g; move: (mav_init F n n) (mav_init F 1 n) h0 => a b.
elim: h a b => // u v us' vs' [hw hd] _ IH a b [ha hb]; apply: IH.
rewrite /mav_add /= -hw hb; split=> //.
rewrite raddfD /= 2!diagZ -ha; congr (_ + _ *: _).
rewrite -total_diag; apply: total_ext' => r s t r1 s1 t1.
by rewrite (one_hotsE (hd r s t r1 s1 t1)) stat_exact.
Qed.

(** * Powers *)
Variables (eigh : forall n, 'M[F]_n -> 'rV[F]_n * 'M[F]_n) (pow : F -> F -> F).
Hypotheses (eighP : eigh_contract eigh) (powP : power_laws pow).

Lemma diag_power n (d : 'rV[F]_n) a e : psd (diag_mx d) -> 0 < a ->
  is_matpower pow (diag_mx d + a *: 1%:M) e (lo_dense (diag_get_matpower pow d e a)).
Proof.
move=> h a0; exists 1%:M, (\row_i (d 0 i + a)); split.
- by rewrite trmx1 mulmx1.
- move=> i; rewrite mxE ltr_spaddr //; have := psd_diag_ge0 i h.
  by rewrite mxE eqxx mulr1n.
- rewrite trmx1 mulmx1 mul1mx; apply/matrixP => i j; rewrite !mxE.
  by case: eqP => [->|]; rewrite ?mulr1n ?mulr1 ?mulr0n ?mulr0 ?addr0.
- rewrite trmx1 mulmx1 mul1mx /=; congr diag_mx; apply/rowP => j; rewrite !mxE //.
Qed.

Variables (th : nat) (clip : F) (meth : posdef_inv_method).
Lemma dense_serves_diag n regs damp (d : 'rV[F]_n) (s : dense F n) e id : clip <= 0 ->
  up_to_date eigh pow th clip meth regs damp (diag_mx d) s ->
  psd (diag_mx d) -> 0 < damp id -> e = 1 \/ List.In (RegMatpower e id) regs ->
  get_matpower s damp e id = Ok (FullMatrix (lo_dense (diag_get_matpower pow d e (damp id)))).
Proof.
move=> hc hu hp hd hr.
have [P [-> hP]] := current_any eighP powP hc hu hr hp hd.
by rewrite (is_matpower_unique hP (diag_power e hp hd)).
Qed.
End Embed.

Section Layer.
Variable F : rcfType.

Lemma factored_ext m n (l l' : linop F m) (r : linop F n) (v : params F m n false) c :
  lo_dense l = lo_dense l' ->
  multiply_factored_matrix (m := m) (has_bias := false) l r v c false false =
  multiply_factored_matrix (m := m) (has_bias := false) l' r v c false false.
Proof. by move=> h; apply: column_inj; rewrite !factored_column /= h. Qed.

Lemma damping_ext pt power pow m n (A A' : linop F m) (G : linop F n) damping norm :
  lo_dense A = lo_dense A' ->
  setup_damping pow pt power A G damping norm = setup_damping pow pt power A' G damping norm.
Proof. by move=> h; rewrite /setup_damping /compute_pi_adjusted_damping /compute_pi_tracenorm !lo_traceE h. Qed.

(** With a bias the full statistic has the frequencies in its last column. *)
Lemma bias_not_diagonal n ids (rows : seq 'rV[F]_n) (i : 'I_n) : one_hots ids rows -> nat_of_ord i \in ids ->
  fc_new_cov_bias rows (lshift 1 i) (rshift n 0) = frequency F ids i.
Proof.
move=> /one_hotsE -> _; rewrite /fc_new_cov_bias compute_covE /avg !size_map !big_map /frequency.
rewrite mxE summxE mulrC; congr (_ / _).
elim: ids => [|k ids IH]; first by rewrite big_nil.
rewrite big_cons IH mxE big_ord1 mxE row_mxEl row_mxEr !mxE /= mulr1 natrD.
by rewrite eq_sym.
Qed.
Lemma frequency_pos ids i : i \in ids -> 0 < frequency F ids i.
Proof.
move=> h; rewrite /frequency divr_gt0 // ltr0n.
  by rewrite -has_count; apply/hasP; exists i.
by case: ids h.
Qed.

Lemma one_hot_row m n (W : 'M[F]_(m, n)) i x : is_one_hot i x -> looks_up W i (x *m W).
Proof.
move=> h r j e; rewrite mxE (bigD1 r) //= big1 ?addr0.
  by rewrite h e eqxx mul1r.
move=> k ne; rewrite h; case: eqP => [e'|]; last by rewrite mul0r.
by case/eqP: ne; apply/val_inj; rewrite /= e' e.
Qed.

Lemma one_hot_delta m (i : 'I_m) (x : 'rV[F]_m) : is_one_hot i x -> x = delta_mx 0 i.
Proof. by move=> h; apply/rowP => j; rewrite h mxE /= -val_eqE /=; case: eqP. Qed.

(** The gradient of the weights: rows of output gradients, at the rows looked up. *)
Lemma slices_gradient m n (s : slices F m n) uses c :
  List.Forall2 (fun p (u : 'rV[F]_m * 'rV[F]_n) => is_one_hot (nat_of_ord p.1) u.1 /\ u.2 = p.2) s uses ->
  is_column (has_bias := false) (densify s) c -> is_gradient (has_bias := false) uses c.
Proof.
move=> h hc v cv hv.
rewrite (is_column_unique hc) (is_column_unique hv) /=.
have -> : ((vec (densify s))^T *m vec v) 0 0 = \sum_i \sum_j densify s i j * v i j.
  rewrite mxE sum_rm; apply: eq_bigr => i _; apply: eq_bigr => j _.
  by rewrite mxE !vecE.
elim: h => [|p u s' uses' [h1 h2] _ IH].
  rewrite big_nil; apply: big1 => i _; apply: big1 => j _.
  by rewrite /densify big_nil mxE mul0r.
rewrite big_cons -IH /=.
have -> : (u.2 *m (u.1 *m v)^T) 0 0 = \sum_i \sum_j ((delta_mx p.1 (0 : 'I_1) : 'cV[F]_m) *m p.2) i j * v i j.
  rewrite (one_hot_delta h1) h2 -rowE mxE.
  rewrite [RHS](bigD1 p.1) //= [X in _ + X]big1 ?addr0.
    by apply: eq_bigr => j _; rewrite !mxE big_ord1 !mxE !eqxx mul1r.
  move=> i ne; apply: big1 => j _; rewrite mxE big_ord1 !mxE.
  by rewrite (negbTE ne) /= !mul0r.
rewrite -big_split /=; apply: eq_bigr => i _; rewrite -big_split /=; apply: eq_bigr => j _.
by rewrite /densify big_cons [in LHS]mxE mulrDl.
Qed.
End Layer.
