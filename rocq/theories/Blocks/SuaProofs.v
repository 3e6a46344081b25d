From mathcomp Require Import all_ssreflect all_algebra.
From Verif.Base Require Import Py.
From Verif.Blocks Require Import Model Spec MatProofs PsdProofs EigProofs FactorProofs ServeProofs BlockProofs
  StatProofs.
Set Implicit Arguments.
Unset Strict Implicit.
Unset Printing Implicit Defensive.
Import GRing.Theory Num.Theory Order.TTheory.
Local Open Scope ring_scope.

Section Sua.
Variable F : rcfType.
Variable eigh : forall n, 'M[F]_n -> 'rV[F]_n * 'M[F]_n.
Hypothesis eighP : eigh_contract eigh.
Variables (c kk : nat).

Lemma sherman n (A B : 'M[F]_n) (u : 'cV[F]_n) h : A *m B = 1%:M -> B^T = B ->
  (u^T *m (B *m u)) 0 0 = h -> 1 + h != 0 ->
  low_rank_update A u u *m low_rank_update B (B *m u) (- (1 / (1 + h)) *: (B *m u)) = 1%:M.
Proof.
move=> hAB hB hh nz; rewrite /low_rank_update.
have [w hw] : exists w, w = B *m u by exists (B *m u).
have hs : u^T *m w = h%:M by rewrite hw -hh [LHS]mx11_scalar.
have hAw : A *m w = u by rewrite hw mulmxA hAB mul1mx.
have huB : u^T *m B = w^T by rewrite hw trmx_mul hB.
rewrite -hw linearZ /= -scalemxAr mulmxDl !mulmxDr hAB -!scalemxAr.
rewrite !mulmxA hAw -[u *m u^T *m B]mulmxA huB -[u *m u^T *m w]mulmxA hs.
rewrite mul_mx_scalar -scalemxAl scalerA.
set z := u *m w^T; set t := 1 / (1 + h).
have ht : t * (1 + h) = 1 by rewrite /t mulfVK.
rewrite -addrA -[RHS]addr0; congr (_ + _).
rewrite -[X in _ + (X + _)]scale1r -!scalerDl.
suff -> : - t + (1 + - t * h) = 0 by rewrite scale0r.
by rewrite mulNr addrCA -opprD -{1}[t]mulr1 -mulrDr ht subrr.
Qed.

Lemma tile_mul (B : 'M[F]_c) (mu : 'cV[F]_c) : kron_identity kk B *m tile_mean kk mu = tile_mean kk (B *m mu).
Proof.
rewrite /kron_identity /tile_mean vec_mul trmx1 mulmx1; congr vec; apply/matrixP => i j.
by rewrite !mxE; apply: eq_bigr => k _; rewrite mxE.
Qed.
Lemma tile_dot (x y : 'cV[F]_c) :
  ((tile_mean kk x)^T *m tile_mean kk y) 0 0 = kk%:R * (x^T *m y) 0 0.
Proof.
rewrite mxE sum_rm mxE mulr_sumr; apply: eq_bigr => i _.
transitivity (\sum_(j < kk) x i 0 * y i 0).
  by apply: eq_bigr => j _; rewrite !mxE ?rm_rowK ?rm_colK.
by rewrite sumr_const card_ord mxE mulr_natl.
Qed.
Lemma kron_id_inv (A B : 'M[F]_c) : A *m B = 1%:M -> kron_identity kk A *m kron_identity kk B = 1%:M.
Proof. by move=> h; rewrite /kron_identity kron_mul h mulmx1 kron1. Qed.

Variables (meth : posdef_inv_method) (zero_mean : bool) (cov : 'M[F]_c) (mu : 'cV[F]_c) (damping : F).
Hypothesis covP : psd cov.
Hypothesis dampP : 0 < damping.
Let P := cov + damping *: 1%:M.

Lemma P_pd : pd P. Proof. exact: psd_damped. Qed.
Lemma P_inv : P *m posdef_inv eigh meth cov damping = 1%:M.
Proof. by rewrite (posdef_invE eighP) // mulmxV // pd_unit //; exact: P_pd. Qed.
Lemma inv_sym : (posdef_inv eigh meth cov damping)^T = posdef_inv eigh meth cov damping.
Proof. by rewrite (posdef_invE eighP) // trmx_inv (proj1 P_pd). Qed.
Lemma h_ge0 : 0 <= kk%:R * (mu^T *m (posdef_inv eigh meth cov damping *m mu)) 0 0.
Proof.
have e : invmx P = (invmx P)^T *m P *m invmx P.
  by rewrite trmx_inv (proj1 P_pd) mulVmx ?mul1mx // pd_unit //; exact: P_pd.
apply: mulr_ge0; first exact: ler0n.
rewrite (posdef_invE eighP) // -/P e !mulmxA -trmx_mul -!mulmxA [P *m _]mulmxA.
have := proj2 (pd_psd P_pd) (invmx P *m mu).
by rewrite -!mulmxA.
Qed.

Lemma sua_inverse :
  sua_cov_operator kk zero_mean cov mu damping
    *m sua_inverse_operator kk zero_mean (sua_update eigh kk meth false cov mu damping) = 1%:M.
Proof.
rewrite /sua_cov_operator /sua_inverse_operator /sua_update /=.
have hk := kron_id_inv P_inv.
case: zero_mean => //.
rewrite -tile_mul; apply: sherman => //.
- by rewrite /kron_identity kron_tr inv_sym trmx1.
- by rewrite tile_mul tile_dot.
- by rewrite gt_eqF // (lt_le_trans ltr01) // ler_addl h_ge0.
Qed.

Lemma block_diag_mul k (A B : 'M[F]_k) (x y : F) : A *m B = 1%:M -> x * y = 1 ->
  block_diag_bias A x *m block_diag_bias B y = 1%:M.
Proof.
move=> h1 h2; rewrite /block_diag_bias mulmx_block !mul0mx !mulmx0 !addr0 !add0r h1 -scalar_mxM h2.
by rewrite -scalar_mx_block.
Qed.

Lemma sua_inverse_bias :
  sua_cov_operator_bias kk zero_mean cov mu damping
    *m sua_inverse_operator_bias kk zero_mean (sua_update eigh kk meth true cov mu damping) = 1%:M.
Proof.
rewrite /sua_cov_operator_bias /sua_inverse_operator_bias /sua_update /=.
have hk := kron_id_inv P_inv.
have hb := block_diag_mul hk (divff (lt0r_neq0 dampP)).
case: zero_mean => //.
have hu : append_value (tile_mean kk (posdef_inv eigh meth cov damping *m mu)) damping^-1 =
  block_diag_bias (kron_identity kk (posdef_inv eigh meth cov damping)) damping^-1
    *m append_value (tile_mean kk mu) 1.
  by rewrite /block_diag_bias /append_value mul_block_col !mul0mx addr0 add0r tile_mul -scalar_mxM mulr1.
rewrite hu; apply: sherman => //.
- by rewrite /block_diag_bias tr_block_mx !trmx0 tr_scalar_mx /kron_identity kron_tr inv_sym trmx1.
- rewrite -hu /append_value tr_col_mx mul_row_col tr_scalar_mx -scalar_mxM mul1r.
  by rewrite entD tile_dot; congr (_ + _); rewrite mxE eqxx mulr1n.
- rewrite gt_eqF // (lt_le_trans ltr01) // ler_addl addr_ge0 ?h_ge0 // invr_ge0; exact: ltW.
Qed.
End Sua.

Section Order.
Variable F : rcfType.
Variables (c kk : nat).

Lemma sua_entries zero_mean (cov : 'M[F]_c) (mu : 'cV[F]_c) damping
   (i i' : 'I_c) (s s' : 'I_kk) (p q : 'I_(c * kk)) :
  nat_of_ord p = (i * kk + s)%N -> nat_of_ord q = (i' * kk + s')%N ->
  sua_cov_operator kk zero_mean cov mu damping p q =
  (cov i i' + damping * (i == i')%:R) * (s == s')%:R + (if zero_mean then 0 else mu i 0 * mu i' 0).
Proof.
move=> hp hq; have -> : p = rm_pos i s by apply: val_inj.
have -> : q = rm_pos i' s' by apply: val_inj.
rewrite /sua_cov_operator; case: zero_mean; rewrite ?/low_rank_update ?entD /kron_identity kronE !mxE ?addr0 //.
by congr (_ + _); rewrite big_ord1 !mxE !rm_rowK.
Qed.
End Order.

Section FullAndDiag.
Variable F : rcfType.
Variable pow : F -> F -> F.
Hypothesis powP : power_laws pow.
Variables (m n : nat) (b : bool).
Implicit Types (v w : params F m n b).

Lemma full_column (M : linop F (rows m b * n)) v t :
  tensors_to_column (full_multiply_matrix M v t) =
  (if t then (lo_dense M)^T else lo_dense M) *m tensors_to_column v.
Proof. by rewrite tensors_of_column lo_matmulE. Qed.

Lemma full_cholesky (L A : 'M[F]_(rows m b * n)) v : L *m L^T = A ->
  exists u w, [/\ full_multiply (Ok (FullMatrix L)) v true = Ok u,
     full_multiply (Ok (FullMatrix L)) u false = Ok w
   & full_multiply (Ok (FullMatrix A)) v false = Ok w].
Proof.
move=> h; do 2 eexists; split; [reflexivity|reflexivity|]; congr Ok; apply: column_inj.
by rewrite !full_column /= mulmxA h.
Qed.
Lemma full_cholesky_inverse (L J : 'M[F]_(rows m b * n)) t v : J *m L = 1%:M ->
  exists u, full_multiply (Ok (FullMatrix L)) v t = Ok u /\
            full_multiply (Ok (FullMatrix J)) u t = Ok v.
Proof.
move=> h; eexists; split; first reflexivity; congr Ok; apply: column_inj.
rewrite !full_column mulmxA; case: t => /=; rewrite ?h -?trmx_mul ?(mulmx1C h) ?trmx1 mul1mx //.
Qed.

Lemma diag_mul (d e : 'rV[F]_n) : diag_mx d *m diag_mx e = diag_mx (\row_i (d 0 i * e 0 i)).
Proof. by rewrite mulmx_diag. Qed.

Lemma diag_block_power (d : 'rV[F]_(rows m b * n)) damping e v w :
  (forall i, 0 < d 0 i + damping) -> w = diagonal_multiply (diag_get_matpower pow d e damping) v false ->
  forall cv cw, is_column v cv -> is_column w cw ->
  forall i, cw i 0 = pow (d 0 i + damping) e * cv i 0.
Proof.
move=> pos -> cv cw /is_column_unique -> /is_column_unique -> i.
by rewrite full_column /= mul_diag_mx !mxE.
Qed.
Lemma diag_block_cholesky (d : 'rV[F]_(rows m b * n)) damping v t t' :
  (forall i, 0 < d 0 i + damping) ->
  diagonal_multiply (diag_get_cholesky pow d damping)
    (diagonal_multiply (diag_get_cholesky pow d damping) v t) t' =
  diagonal_multiply (diag_get_matpower pow d 1 damping) v false.
Proof.
move=> pos; apply: column_inj; rewrite !full_column /= mulmxA mulmx_diag.
congr (diag_mx _ *m _); apply/rowP => i.
by rewrite !mxE (pow_half powP) // (pow_one powP) // -expr2 sqr_sqrtr // ltW.
Qed.
Lemma diag_block_cholesky_inverse (d : 'rV[F]_(rows m b * n)) damping v t t' :
  (forall i, 0 < d 0 i + damping) ->
  diagonal_multiply (diag_get_cholesky_inverse pow d damping)
    (diagonal_multiply (diag_get_cholesky pow d damping) v t) t' = v.
Proof.
move=> pos; apply: column_inj; rewrite !full_column /= mulmxA mulmx_diag.
rewrite -[RHS]mul1mx; congr (_ *m _); rewrite -diag_const_mx; congr diag_mx; apply/rowP => i.
by rewrite !mxE (pow_half powP) // (pow_minus_half powP) // mulVf // gt_eqF // sqrtr_gt0.
Qed.
End FullAndDiag.

Section Align.
Variable F : rcfType.

Lemma vec_dot m n (X Y : 'M[F]_(m, n)) : ((vec X)^T *m vec Y) 0 0 = \tr (X^T *m Y).
Proof.
rewrite mxE sum_rm /mxtrace exchange_big; apply: eq_bigr => j _; rewrite mxE; apply: eq_bigr => i _.
by rewrite !mxE ?rm_rowK ?rm_colK.
Qed.
(** The input with the bias input appended. *)
Definition ext m b : 'rV[F]_m -> 'rV[F]_(rows m b) :=
  match b with true => fun x => append_homog x | false => fun x => x end.
Lemma fc_outputE m n b (v : params F m n b) x : fc_output v x = ext b x *m layer_params_to_mat2d v.
Proof. by case: b v => //= v; rewrite /append_homog mul_row_col mul1mx. Qed.

Lemma gradient_unique m n b (locs : seq ('rV[F]_m * 'rV[F]_n)) (cg : 'cV[F]_(rows m b * n)) :
  is_gradient locs cg ->
  cg = vec (\sum_(l <- locs) (ext b l.1)^T *m l.2).
Proof.
move=> h; apply/matrixP => p z; rewrite ord1.
pose v : params F m n b := column_to_tensors (delta_mx p 0).
have hv : is_column v (delta_mx p 0) by have := column_is_column v; rewrite /v tensors_of_column.
have := h v _ hv; rewrite -colE !mxE => ->.
have hc : tensors_to_column v = delta_mx p 0 by rewrite /v tensors_of_column.
transitivity (\sum_(l <- locs) \tr (((ext b l.1)^T *m l.2)^T *m layer_params_to_mat2d v)).
  apply: eq_bigr => l _; rewrite fc_outputE -trace_mx11 -mxtrace_tr !trmx_mul !trmxK.
  by rewrite [LHS]mxtrace_mulC mulmxA.
rewrite -raddf_sum -mulmx_suml -linear_sum /= -vec_dot -mat2d_col hc.
rewrite -colE. rewrite mxE mxE. by rewrite /vec mxE.
Qed.

Lemma convdiag_aligned m n b (examples : seq (seq ('rV[F]_m * 'rV[F]_n)))
   (col : seq ('rV[F]_m * 'rV[F]_n) -> 'cV[F]_(rows m b * n)) :
  (forall e, is_gradient e (col e)) ->
  forall p, matrix_diagonal (convdiag_new_cov [seq [seq (ext b l.1, l.2) | l <- e] | e <- examples]) 0 p =
    (size examples)%:R^-1 * \sum_(e <- examples) (col e p 0) ^+ 2.
Proof.
move=> hc p; rewrite /matrix_diagonal /convdiag_new_cov !mxE size_map; congr (_ * _).
rewrite big_map summxE; apply: eq_bigr => e _; rewrite mxE (gradient_unique (hc e)) mxE.
by rewrite /convdiag_case_gradient big_map.
Qed.
Lemma fcdiag_conv m n (examples : seq ('rV[F]_m * 'rV[F]_n)) :
  fcdiag_new_cov examples = convdiag_new_cov [seq [:: e] | e <- examples].
Proof.
rewrite /fcdiag_new_cov /convdiag_new_cov size_map big_map; congr (_ *: _); apply: eq_bigr => e _.
apply/matrixP => i j; rewrite /convdiag_case_gradient big_seq1 !mxE !big_ord1 !mxE.
by rewrite exprMn.
Qed.

(** * Sparse vectors *)
Lemma densify_nil m n : densify ([::] : slices F m n) = 0.
Proof. by rewrite /densify big_nil. Qed.
Lemma densify_map m n p (f : 'I_m * 'rV[F]_n -> 'I_m * 'rV[F]_p) (A : 'M[F]_m) (B : 'M[F]_(n, p)) (s : slices F m n) :
  (forall q, (delta_mx (f q).1 0 : 'cV[F]_m) *m (f q).2 = A *m ((delta_mx q.1 0 : 'cV[F]_m) *m q.2) *m B) ->
  densify (map f s) = A *m densify s *m B.
Proof. by move=> h; rewrite /densify big_map mulmx_sumr mulmx_suml; apply: eq_bigr => q _. Qed.

Lemma sparse_agrees m n (d : 'rV[F]_m) (M : 'M[F]_n) (s : slices F m n) scale tl :
  exists out, multiply_factored_matrix_sparse (DiagOp d) (FullMatrix M) s scale tl false = Ok out /\
   densify out = multiply_factored_matrix (m := m) (has_bias := false) (DiagOp d) (FullMatrix M) (densify s) scale tl false.
Proof.
rewrite /multiply_factored_matrix_sparse /=; eexists; split; first reflexivity.
rewrite /multiply_factored_matrix /=.
have -> : (\matrix_(i, j) (d 0 i * (densify s *m M) i j) : 'M[F]_(m, n)) = diag_mx d *m densify s *m M.
  by rewrite -mulmxA; apply/matrixP => i j; rewrite mul_diag_mx !mxE.
have h1 : densify (matmul_diag_sparse d (matmul_sparse_dense s M)) = diag_mx d *m densify s *m M.
  rewrite /matmul_diag_sparse /matmul_sparse_dense -map_comp.
  apply: densify_map => q /=; rewrite mulmxA -[diag_mx d *m _]/(_ *m _).
  have -> : diag_mx d *m delta_mx q.1 0 = d 0 q.1 *: (delta_mx q.1 0 : 'cV[F]_m).
    apply/matrixP => i j; rewrite mul_diag_mx !mxE; case: eqP => [->|] //=; by rewrite !mulr0.
  by rewrite -scalemxAr -!scalemxAl mulmxA.
case: ifP => _ //; rewrite -h1.
have -> : scale *: densify (matmul_diag_sparse d (matmul_sparse_dense s M)) =
   scale%:M *m densify (matmul_diag_sparse d (matmul_sparse_dense s M)) *m 1%:M.
  by rewrite mulmx1 mul_scalar_mx.
by apply: densify_map => q /=; rewrite mulmx1 mul_scalar_mx scalemxAr.
Qed.
End Align.
