From mathcomp Require Import all_ssreflect all_algebra.
From Verif.Base Require Import Py.
From Verif.Blocks Require Import Model Spec MatProofs PsdProofs EigProofs FactorProofs ServeProofs.
Set Implicit Arguments.
Unset Strict Implicit.
Unset Printing Implicit Defensive.
Import GRing.Theory Num.Theory Order.TTheory.
Local Open Scope ring_scope.

Section Current.
Variable F : rcfType.
Variable eigh : forall n, 'M[F]_n -> 'rV[F]_n * 'M[F]_n.
Variable pow : F -> F -> F.
Hypothesis eighP : eigh_contract eigh.
Hypothesis powP : power_laws pow.
Variables (n th : nat) (clip : F) (meth : posdef_inv_method).
Hypothesis clip0 : clip <= 0.
Variables (regs : seq (registration F)) (damp : nat -> F) (C : 'M[F]_n) (s : dense F n).
Hypothesis upto : up_to_date eigh pow th clip meth regs damp C s.

Lemma cov_after_cat (c : 'M[F]_n) l1 l2 : cov_after c (l1 ++ l2) = cov_after (cov_after c l1) l2.
Proof. by elim: l1 c => //= -[c'|k d] l1 IH c /=; rewrite IH. Qed.
Lemma cov_after_runs (c : 'M[F]_n) ks d : cov_after c [seq RunOp n k d | k <- ks] = c.
Proof. by elim: ks. Qed.

(** A refreshed history ends, for each op, with the run of that op. *)
Lemma refresh_split (l : seq (event F n)) m k d : (k < m)%N -> exists pre post,
  [/\ l ++ refresh n m d = pre ++ RunOp n k d :: post, ~ runs k post
    & cov_after 0 pre = cov_after 0 l].
Proof.
move=> km; exists (l ++ [seq RunOp n j d | j <- iota 0 k]), [seq RunOp n j d | j <- iota k.+1 (m - k.+1)].
split.
- rewrite -catA; congr (_ ++ _); rewrite /refresh -{1}(subnKC km) addSnnS iotaD map_cat add0n.
  by rewrite -addn1 addnC /=.
- move=> [d' h].
  have : has (fun e => match e with RunOp j _ => j == k | _ => false end) [seq RunOp n j d | j <- iota k.+1 (m - k.+1)].
    elim: [seq _ | _ <- _] h => //= e es IH [->|h]; first by rewrite eqxx.
    by rewrite IH ?orbT.
  rewrite has_map => /hasP [j]; rewrite mem_iota => /andP[hj _] /= /eqP e.
  by rewrite e ltnn in hj.
- by rewrite cov_after_cat cov_after_runs.
Qed.

Lemma current_one damp' id : get_matpower s damp' 1 id = Ok (FullMatrix (C + damp' id *: 1%:M)).
Proof.
have [init [ops [s0 [l [hf hC ->]]]]] := upto.
by rewrite (served_one _ _ _ _ hf) cov_after_cat cov_after_runs hC.
Qed.
Lemma current_matpower ex id : List.In (RegMatpower ex id) regs -> ex <> 1 -> psd C -> 0 < damp id ->
  forall damp', exists P, get_matpower s damp' ex id = Ok (FullMatrix P) /\
    is_matpower pow (C + damp id *: 1%:M) ex P.
Proof.
move=> hr ne hC hd damp'; have [init [ops [s0 [l [hf hCl ->]]]]] := upto.
have [k [hk [h1 _]]] := served_matpower eighP powP meth clip0 hf hr ne.
have [pre [post [-> hp hc]]] := refresh_split l damp hk.
by have := h1 pre damp post hp; rewrite hc hCl => /(_ hC hd damp').
Qed.
Lemma current_any ex id : (ex = 1 \/ List.In (RegMatpower ex id) regs) -> psd C -> 0 < damp id ->
  exists P, get_matpower s damp ex id = Ok (FullMatrix P) /\
    is_matpower pow (C + damp id *: 1%:M) ex P.
Proof.
move=> hr hC hd; have [->|/eqP ne] := eqVneq ex 1.
  by exists (C + damp id *: 1%:M); split; [exact: current_one | apply: matpower_one => //; exact: psd_damped].
by case: hr => // hr; apply: current_matpower.
Qed.
Lemma current_cholesky id : List.In (RegCholesky F id) regs -> psd C -> 0 < damp id ->
  exists L, get_cholesky s id = Ok (FullMatrix L) /\
   [/\ L *m L^T = C + damp id *: 1%:M, forall i j : 'I_n, (i < j)%N -> L i j = 0
         & forall i, 0 < L i i].
Proof.
move=> hr hC hd; have [init [ops [s0 [l [hf hCl ->]]]]] := upto.
have [k [hk [h1 _]]] := served_cholesky eigh pow clip meth hf hr.
have [pre [post [-> hp hc]]] := refresh_split l damp hk.
by have := h1 pre damp post hp; rewrite hc hCl => /(_ hC hd).
Qed.
Lemma current_cholinv id : List.In (RegCholeskyInverse F id) regs -> psd C -> 0 < damp id ->
  exists L J, get_cholesky_inverse s id = Ok (FullMatrix J) /\ J *m L = 1%:M /\
   [/\ L *m L^T = C + damp id *: 1%:M, forall i j : 'I_n, (i < j)%N -> L i j = 0
         & forall i, 0 < L i i].
Proof.
move=> hr hC hd; have [init [ops [s0 [l [hf hCl ->]]]]] := upto.
have [k [hk [h1 _]]] := served_cholinv eigh pow clip meth hf hr.
have [pre [post [-> hp hc]]] := refresh_split l damp hk.
by have := h1 pre damp post hp; rewrite hc hCl => /(_ hC hd).
Qed.
End Current.

Section Uniq.
Variable F : rcfType.
(** The Cholesky factor is unique. *)
Lemma chol_unique n (L K : 'M[F]_n) : L *m L^T = K *m K^T ->
  (forall i j : 'I_n, (i < j)%N -> L i j = 0) -> (forall i, 0 < L i i) ->
  (forall i j : 'I_n, (i < j)%N -> K i j = 0) -> (forall i, 0 < K i i) -> L = K.
Proof.
elim: n L K => [|p IH] L K; first by move=> *; rewrite !flatmx0.
move: L K; rewrite -[p.+1]/(1 + p)%N => L K h lL pL lK pK.
have blk (A : 'M[F]_(1 + p)) : (forall i j : 'I_(1 + p), (i < j)%N -> A i j = 0) ->
   A = block_mx (A 0 0)%:M 0 (dlsubmx A) (drsubmx A).
  move=> lA; rewrite -[LHS]submxK; congr block_mx; apply/matrixP => i j; rewrite !mxE.
  + by rewrite !ord1 eqxx mulr1n; congr (A _ _); apply: val_inj.
  + by rewrite lA //= ltn_addr.
have hl := blk _ lL; have hk := blk _ lK.
move: h; rewrite {1 2}hl {1 2}hk !tr_block_mx !mulmx_block !tr_scalar_mx !trmx0.
rewrite !mul0mx !mulmx0 !addr0 -!scalar_mxM => /eq_block_mx [h1 _ h3 h4].
have e0 : L 0 0 = K 0 0.
  have /eqP := congr1 (fun A : 'M_1 => A 0 0) h1; rewrite !mxE eqxx !mulr1n -!expr2.
  by rewrite eqr_expn2 ?ltW // => /eqP.
have e1 : dlsubmx L = dlsubmx K.
  move: h3; rewrite !mul_mx_scalar e0; apply: scalerI; by rewrite gt_eqF.
have e2 : drsubmx L = drsubmx K.
  apply: IH.
  + by move: h4; rewrite e1 => /addrI.
  + by move=> i j ij; rewrite !mxE lL //= ltn_add2l.
  + by move=> i; rewrite !mxE pL.
  + by move=> i j ij; rewrite !mxE lK //= ltn_add2l.
  + by move=> i; rewrite !mxE pK.
by rewrite hl hk e0 e1 e2.
Qed.
End Uniq.

Section KronBlocks.
Variable F : rcfType.
Variable pow : F -> F -> F.
Hypothesis powP : power_laws pow.

Lemma kron_diag m n (d : 'rV[F]_m) (e : 'rV[F]_n) :
  kronecker_product (diag_mx d) (diag_mx e) = diag_mx (\row_k (d 0 (rm_row k) * e 0 (rm_col k))).
Proof.
apply/matrixP => r s; rewrite -(rm_posK r) -(rm_posK s) kronE !mxE !rm_rowK !rm_colK.
have -> : (rm_pos (rm_row r) (rm_col r) == rm_pos (rm_row s) (rm_col s))
   = (rm_row r == rm_row s) && (rm_col r == rm_col s).
  apply/eqP/andP => [/(congr1 val) h|[/eqP -> /eqP ->] //].
  by have [-> ->] := rm_pos_inj h.
case: eqP => _; case: eqP => _; rewrite ?mulr1n ?mulr0n ?mulr0 ?mul0r //.
Qed.

Lemma kron_matpower m n (A P : 'M[F]_m) (G Q : 'M[F]_n) e r : 0 < r ->
  is_matpower pow A e P -> is_matpower pow G e Q ->
  is_matpower pow (r *: kronecker_product A G) e (pow r e *: kronecker_product P Q).
Proof.
move=> r0 [V [d [hV pd -> ->]]] [W [f [hW pf -> ->]]].
exists (kronecker_product V W), (\row_k (r * (d 0 (rm_row k) * f 0 (rm_col k)))).
have hk (x : 'rV[F]_m) (y : 'rV[F]_n) c : c *: kronecker_product (V *m diag_mx x *m V^T) (W *m diag_mx y *m W^T) =
  kronecker_product V W *m diag_mx (\row_k (c * (x 0 (rm_row k) * y 0 (rm_col k)))) *m (kronecker_product V W)^T.
  have -> : diag_mx (\row_k (c * (x 0 (rm_row k) * y 0 (rm_col k)))) = c *: kronecker_product (diag_mx x) (diag_mx y).
    by rewrite kron_diag; apply/matrixP => i j; rewrite !mxE -mulrnAr.
  by rewrite -scalemxAr -scalemxAl kron_tr !kron_mul.
split.
- by rewrite kron_tr kron_mul hV hW kron1.
- by move=> k; rewrite mxE mulr_gt0 // mulr_gt0.
- exact: hk.
- rewrite hk; congr (_ *m diag_mx _ *m _); apply/rowP => k; rewrite !mxE.
  by rewrite !(pow_mul powP) // mulr_gt0.
Qed.

Variables (m n : nat) (b : bool).
Implicit Types (v w : params F m n b).

Lemma kron_multiply_column (l : linop F (rows m b)) (r : linop F n) left right renorm v e :
  left e = Ok l -> right e = Ok r ->
  exists w, kron_multiply_matpower pow left right renorm v e = Ok w /\
   forall cv cw K, is_column v cv -> is_column w cw -> is_kron (lo_dense l) (lo_dense r)^T K ->
     cw = pow renorm e *: (K *m cv).
Proof.
move=> hl hr; rewrite /kron_multiply_matpower hl hr; eexists; split; first reflexivity.
move=> cv cw K /is_column_unique -> /is_column_unique -> /is_kron_unique ->.
by rewrite factored_column.
Qed.

Lemma kron_block_power (A P : 'M[F]_(rows m b)) (G Q : 'M[F]_n) left right renorm v e :
  left e = Ok (FullMatrix P) -> right e = Ok (FullMatrix Q) -> 0 < renorm ->
  is_matpower pow A e P -> is_matpower pow G e Q ->
  exists w, kron_multiply_matpower pow left right renorm v e = Ok w /\
   forall cv cw K, is_column v cv -> is_column w cw -> is_kron A G K ->
     exists M, is_matpower pow (renorm *: K) e M /\ cw = M *m cv.
Proof.
move=> hl hr r0 hA hG; have [w [-> hw]] := kron_multiply_column renorm v hl hr; exists w; split=> //.
move=> cv cw K hv hc /is_kron_unique ->; exists (pow renorm e *: kronecker_product P Q).
split; first exact: kron_matpower.
rewrite (hw _ _ _ hv hc (is_kron_model _ _)) /= (matpower_sym powP hG).
by rewrite -scalemxAl.
Qed.

(** Cholesky products. *)
Lemma renorm_half r : 0 < r -> pow r 2^-1 * pow r 2^-1 = r.
Proof. by move=> r0; rewrite (pow_half powP) // -expr2 sqr_sqrtr // ltW. Qed.
Lemma renorm_half_inv r : 0 < r -> pow r (- 2^-1) * pow r 2^-1 = 1.
Proof.
by move=> r0; rewrite (pow_half powP) // (pow_minus_half powP) // mulVf // gt_eqF // sqrtr_gt0.
Qed.

Lemma kron_cholesky (L A : 'M[F]_(rows m b)) (R G : 'M[F]_n) renorm v : 0 < renorm ->
  L *m L^T = A -> R *m R^T = G -> G^T = G ->
  exists u w, [/\ kron_multiply_cholesky pow (Ok (FullMatrix L)) (Ok (FullMatrix R)) renorm v true = Ok u,
     kron_multiply_cholesky pow (Ok (FullMatrix L)) (Ok (FullMatrix R)) renorm u false = Ok w
   & kron_multiply_matpower pow (fun=> Ok (FullMatrix A)) (fun=> Ok (FullMatrix G)) renorm v 1 = Ok w].
Proof.
move=> r0 hL hR hG; do 2 eexists; split; [reflexivity|reflexivity|].
rewrite /kron_multiply_matpower; congr Ok; apply: column_inj; rewrite !factored_column /=.
rewrite -scalemxAr scalerA renorm_half // (pow_one powP) // mulmxA kron_mul hL hR.
by rewrite hG.
Qed.
Lemma kron_cholesky_inverse (L I : 'M[F]_(rows m b)) (R J : 'M[F]_n) renorm t v : 0 < renorm ->
  I *m L = 1%:M -> J *m R = 1%:M ->
  exists u, kron_multiply_cholesky pow (Ok (FullMatrix L)) (Ok (FullMatrix R)) renorm v t = Ok u /\
     kron_multiply_cholesky_inverse pow (Ok (FullMatrix I)) (Ok (FullMatrix J)) renorm u t = Ok v.
Proof.
move=> r0 hI hJ; eexists; split; first reflexivity.
rewrite /kron_multiply_cholesky_inverse; congr Ok; apply: column_inj; rewrite !factored_column /=.
rewrite -scalemxAr scalerA renorm_half_inv // scale1r mulmxA kron_mul.
case: t => /=; rewrite ?hI ?hJ -?trmx_mul ?(mulmx1C hI) ?(mulmx1C hJ) ?trmx1 kron1 ?mul1mx //.
Qed.
End KronBlocks.
