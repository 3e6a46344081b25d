From mathcomp Require Import all_ssreflect all_algebra.
From Verif.Base Require Import Py.
From Verif.Blocks Require Import Model Spec.
Set Implicit Arguments.
Unset Strict Implicit.
Unset Printing Implicit Defensive.
Import GRing.Theory Num.Theory Order.TTheory.
Local Open Scope ring_scope.

(** * Positions *)
Lemma rm_rowK m n (i : 'I_m) (j : 'I_n) : rm_row (rm_pos i j) = i.
Proof.
apply: val_inj => /=; case: n j => [[] //|n] j.
by rewrite divnMDl // divn_small ?addn0.
Qed.
Lemma rm_colK m n (i : 'I_m) (j : 'I_n) : rm_col (rm_pos i j) = j.
Proof. by apply: val_inj => /=; rewrite modnMDl modn_small. Qed.
Lemma rm_posK m n (k : 'I_(m * n)) : rm_pos (rm_row k) (rm_col k) = k.
Proof. by apply: val_inj => /=; rewrite -divn_eq. Qed.
Lemma rm_pos_inj m n (i i' : 'I_m) (j j' : 'I_n) :
  (i * n + j = i' * n + j')%N -> i = i' /\ j = j'.
Proof.
move=> e; have h : rm_pos i j = rm_pos i' j' by apply: val_inj.
by split; [rewrite -(rm_rowK i j) h rm_rowK | rewrite -(rm_colK i j) h rm_colK].
Qed.

Section Mat.
Variable F : rcfType.

(** * vec and kronecker_product *)
Lemma vecE m n (A : 'M[F]_(m, n)) i j : vec A (rm_pos i j) 0 = A i j.
Proof. by rewrite mxE rm_rowK rm_colK. Qed.
Lemma vecK m n (A : 'M[F]_(m, n)) : unvec (vec A) = A.
Proof. by apply/matrixP => i j; rewrite mxE vecE. Qed.
Lemma unvecK m n (c : 'cV[F]_(m * n)) : vec (unvec c) = c.
Proof. by apply/matrixP => k j; rewrite ord1 !mxE rm_posK. Qed.
Lemma vecD m n (A B : 'M[F]_(m, n)) : vec (A + B) = vec A + vec B.
Proof. by apply/matrixP => k j; rewrite !mxE. Qed.
Lemma vecZ m n a (A : 'M[F]_(m, n)) : vec (a *: A) = a *: vec A.
Proof. by apply/matrixP => k j; rewrite !mxE. Qed.

Lemma kronE m1 n1 m2 n2 (A : 'M[F]_(m1, n1)) (B : 'M[F]_(m2, n2)) i j k l :
  kronecker_product A B (rm_pos i k) (rm_pos j l) = A i j * B k l.
Proof. by rewrite mxE !rm_rowK !rm_colK. Qed.

Lemma is_kron_model m1 n1 m2 n2 (A : 'M[F]_(m1, n1)) (B : 'M[F]_(m2, n2)) :
  is_kron A B (kronecker_product A B).
Proof.
move=> i j k l r s hr hs.
have -> : r = rm_pos i k by apply: val_inj.
have -> : s = rm_pos j l by apply: val_inj.
exact: kronE.
Qed.
Lemma is_kron_unique m1 n1 m2 n2 (A : 'M[F]_(m1, n1)) (B : 'M[F]_(m2, n2)) K :
  is_kron A B K -> K = kronecker_product A B.
Proof.
move=> h; apply/matrixP => r s; rewrite -(rm_posK r) -(rm_posK s) kronE.
exact: h.
Qed.

Lemma sum_rm m n (f : 'I_(m * n) -> F) :
  \sum_k f k = \sum_i \sum_j f (rm_pos i j).
Proof.
rewrite pair_bigA /=.
rewrite (reindex (fun p : 'I_m * 'I_n => rm_pos p.1 p.2)) //=.
exists (fun k => (rm_row k, rm_col k)) => [[i j] _ | k _] /=.
  by rewrite rm_rowK rm_colK.
by rewrite rm_posK.
Qed.

Lemma vec_mul m n p q (A : 'M[F]_(m, n)) (B : 'M[F]_(q, p)) (X : 'M[F]_(n, p)) :
  kronecker_product A B *m vec X = vec (A *m X *m B^T).
Proof.
apply/matrixP => r z; rewrite ord1 -(rm_posK r) vecE !mxE sum_rm.
rewrite exchange_big /=; apply: eq_bigr => l _.
rewrite !mxE big_distrl /=; apply: eq_bigr => j _.
by rewrite ?mxE !rm_rowK !rm_colK mulrAC.
Qed.

Lemma kron_mul m n p m' n' p' (A : 'M[F]_(m, n)) (B : 'M[F]_(n, p))
    (C : 'M[F]_(m', n')) (D : 'M[F]_(n', p')) :
  kronecker_product A C *m kronecker_product B D = kronecker_product (A *m B) (C *m D).
Proof.
apply/matrixP => r s; rewrite -(rm_posK r) -(rm_posK s) kronE !mxE sum_rm.
rewrite big_distrl /=; apply: eq_bigr => i _; rewrite big_distrr /=; apply: eq_bigr => j _.
by rewrite !mxE !rm_rowK !rm_colK mulrACA.
Qed.
Lemma kron_tr m n p q (A : 'M[F]_(m, n)) (B : 'M[F]_(p, q)) :
  (kronecker_product A B)^T = kronecker_product A^T B^T.
Proof. by apply/matrixP => r s; rewrite !mxE. Qed.
Lemma kron1 m n : kronecker_product (1%:M : 'M[F]_m) (1%:M : 'M[F]_n) = 1%:M.
Proof.
apply/matrixP => r s; rewrite -(rm_posK r) -(rm_posK s) kronE !mxE -natrM mulnb.
congr (_%:R); congr nat_of_bool; apply/andP/eqP => [[/eqP -> /eqP ->] //|].
by move/(congr1 val) => /= h; split; apply/eqP; apply: val_inj => /=;
  move/(congr1 (fun x => (x %/ n, x %% n)%N)): h => /=;
  rewrite !divnMDl ?modnMDl ?(leq_ltn_trans _ (ltn_ord (rm_col r))) //
    !modn_mod !(divn_small (ltn_pmod _ _)) ?(leq_ltn_trans _ (ltn_ord (rm_col r))) //
    !addn0 => [[]].
Qed.
Lemma kronDl m n p q (A B : 'M[F]_(m, n)) (C : 'M[F]_(p, q)) :
  kronecker_product (A + B) C = kronecker_product A C + kronecker_product B C.
Proof. by apply/matrixP => r s; rewrite !mxE mulrDl. Qed.
Lemma kronDr m n p q (A : 'M[F]_(m, n)) (B C : 'M[F]_(p, q)) :
  kronecker_product A (B + C) = kronecker_product A B + kronecker_product A C.
Proof. by apply/matrixP => r s; rewrite !mxE mulrDr. Qed.
Lemma kronZl m n p q a (A : 'M[F]_(m, n)) (C : 'M[F]_(p, q)) :
  kronecker_product (a *: A) C = a *: kronecker_product A C.
Proof. by apply/matrixP => r s; rewrite !mxE mulrA. Qed.
Lemma kronZr m n p q a (A : 'M[F]_(m, n)) (C : 'M[F]_(p, q)) :
  kronecker_product A (a *: C) = a *: kronecker_product A C.
Proof. by apply/matrixP => r s; rewrite !mxE mulrCA. Qed.

(** * Parameters and columns *)
Lemma mat2d_col m n b (v : params F m n b) : tensors_to_column v = vec (layer_params_to_mat2d v).
Proof.
case: b v => [[w b]|w //] /=; apply/matrixP => p z; rewrite ord1 castmxE /= cast_ord_id.
rewrite [RHS]mxE; have hn : (0 < n)%N.
  by rewrite lt0n; apply/eqP => n0; case: p => p; rewrite n0 muln0.
rewrite mxE; case: splitP => [q /= hq|q /= hq].
- rewrite [LHS]mxE [RHS]mxE; case: splitP => [i /= hi|i /= hi].
    by congr (w _ _); apply: val_inj; rewrite /= -?hi /= hq.
  have : (p %/ n < m)%N by rewrite ltn_divLR // hq.
  by rewrite hi ltnNge leq_addr.
- rewrite [LHS]mxE [RHS]mxE; case: splitP => [i /= hi|i hi].
    by move: (ltn_ord i); rewrite -hi hq divnMDl // ltnNge leq_addr.
  rewrite [rm_row q]ord1 [i]ord1; congr (b _ _); apply: val_inj => /=.
  by rewrite hq modnMDl.
Qed.

Lemma layer_of_mat2d m n b (x : 'M[F]_(rows m b, n)) :
  layer_params_to_mat2d (mat2d_to_layer_params x) = x.
Proof. by case: b x => //= x; rewrite vsubmxK. Qed.
Lemma mat2d_of_layer m n b (v : params F m n b) :
  mat2d_to_layer_params (layer_params_to_mat2d v) = v.
Proof. by case: b v => //= -[w b]; rewrite col_mxKu col_mxKd. Qed.
Lemma column_of_tensors m n b (v : params F m n b) : column_to_tensors (tensors_to_column v) = v.
Proof.
case: b v => [[w b]|w] /=; last by rewrite vecK.
by rewrite castmx_comp castmx_id /= col_mxKu col_mxKd !vecK.
Qed.
Lemma tensors_of_column m n b (c : 'cV[F]_(rows m b * n)) :
  tensors_to_column (column_to_tensors c : params F m n b) = c.
Proof.
case: b c => [c|c] /=; last by rewrite unvecK.
by rewrite !unvecK vsubmxK castmx_comp castmx_id.
Qed.
Lemma column_inj m n b (v w : params F m n b) :
  tensors_to_column v = tensors_to_column w -> v = w.
Proof. by move=> h; rewrite -(column_of_tensors v) h column_of_tensors. Qed.

Lemma column_is_column m n b (v : params F m n b) : is_column v (tensors_to_column v).
Proof.
case: b v => [[w b]|w] /= p; last first.
  by exists (rm_row p), (rm_col p); split; [rewrite /= -divn_eq | rewrite mxE].
rewrite castmxE /= cast_ord_id mxE; case: splitP => [q /= hq|q /= hq]; rewrite [vec _ _ _]mxE.
- left; exists (rm_row q), (rm_col q); split => //=.
  by rewrite hq -divn_eq.
- right; exists (rm_col q); rewrite [rm_row q]ord1; split => //=.
  have -> : (q %% n = q)%N by rewrite modn_small // -[X in (_ < X)%N]mul1n.
  by rewrite hq.
Qed.
Lemma is_column_unique m n b (v : params F m n b) c :
  is_column v c -> c = tensors_to_column v.
Proof.
move=> h; apply/matrixP => p z; rewrite ord1; move: (h p) (column_is_column v p).
case: b v c h p => [[w b]|w] c _ p /=.
- have hsmall (i : 'I_m) (j : 'I_n) : (i * n + j < m * n)%N := rm_pos_proof i j.
  move=> [[i [j [e ->]]]|[j [e ->]]] [[i' [j' [e' ->]]]|[j' [e' ->]]].
  + by rewrite e in e'; case: (rm_pos_inj e') => -> ->.
  + by move: (hsmall i j); rewrite -e e' ltnNge leq_addr.
  + by move: (hsmall i' j'); rewrite -e' e ltnNge leq_addr.
  + by rewrite e in e'; move/addnI: e' => /val_inj ->.
- move=> [i [j [e ->]]] [i' [j' [e' ->]]]; rewrite e in e'.
  by case: (rm_pos_inj e') => -> ->.
Qed.

(** * Linear operators *)
Lemma lo_matmulE n p (o : linop F n) adj (x : 'M[F]_(n, p)) :
  lo_matmul o adj x = (if adj then (lo_dense o)^T else lo_dense o) *m x.
Proof.
case: o => [M //|d]; rewrite /= tr_diag_mx if_same; apply/matrixP => i j.
by rewrite mul_diag_mx !mxE.
Qed.
Lemma lo_matmul_rightE n p (o : linop F n) adj (x : 'M[F]_(p, n)) :
  lo_matmul_right o adj x = x *m (if adj then (lo_dense o)^T else lo_dense o).
Proof.
case: o => [M //|d]; rewrite /= tr_diag_mx if_same; apply/matrixP => i j.
by rewrite mul_mx_diag !mxE mulrC.
Qed.
Lemma lo_traceE n (o : linop F n) : lo_trace o = \tr (lo_dense o).
Proof. by case: o => [M //|d]; rewrite /= mxtrace_diag. Qed.

(** multiply_factored_matrix as a matrix-vector product. *)
Lemma factored_column m n b (l : linop F (rows m b)) (r : linop F n) (v : params F m n b) c tl tr :
  tensors_to_column (multiply_factored_matrix l r v c tl tr) =
  c *: (kronecker_product (if tl then (lo_dense l)^T else lo_dense l)
         (if tr then lo_dense r else (lo_dense r)^T) *m tensors_to_column v).
Proof.
rewrite !mat2d_col layer_of_mat2d vec_mul lo_matmulE lo_matmul_rightE -mulmxA.
have -> : (if tr then lo_dense r else (lo_dense r)^T)^T =
          (if tr then (lo_dense r)^T else lo_dense r) by case: tr; rewrite ?trmxK.
by rewrite mulmxA; case: eqP => [-> | _] /=; rewrite ?scale1r // vecZ.
Qed.
End Mat.
