(** A layer in other coordinates: proofs for C121. *)
From mathcomp Require Import all_ssreflect all_fingroup all_algebra.
From Verif.Base Require Import Py.
From Verif.Blocks Require Import Model Spec MatProofs PsdProofs EigProofs FactorProofs ServeProofs BlockProofs
  StatProofs SuaProofs EndProofs RotateSpec.
Set Implicit Arguments.
Unset Strict Implicit.
Unset Printing Implicit Defensive.
Import GRing.Theory Num.Theory Order.TTheory.
Local Open Scope ring_scope.

Section Rotate.
Variable F : rcfType.

Lemma orth_left n (Q : 'M[F]_n) : orthogonal Q -> Q^T *m Q = 1%:M.
Proof. exact: mulmx1C. Qed.
Lemma orth1 n : orthogonal (1%:M : 'M[F]_n).
Proof. by rewrite /orthogonal trmx1 mulmx1. Qed.
Lemma renumbering_orth n (Q : 'M[F]_n) : renumbering Q -> orthogonal Q.
Proof. by move=> [s ->]; rewrite /orthogonal tr_perm_mx -perm_mxM mulgV perm_mx1. Qed.
Lemma orth_tr n (Q : 'M[F]_n) : orthogonal Q -> orthogonal Q^T.
Proof. by move=> h; rewrite /orthogonal trmxK; exact: orth_left. Qed.
Lemma orth_constant m b (Q : 'M[F]_m) : orthogonal Q -> orthogonal (with_constant b Q).
Proof.
move=> h; case: b => //=; rewrite /orthogonal tr_block_mx !trmx0 trmx1 mulmx_block h.
by rewrite !mulmx0 !mul0mx mulmx1 !addr0 add0r -scalar_mx_block.
Qed.
Lemma orth_kron m n (Q : 'M[F]_m) (R : 'M[F]_n) : orthogonal Q -> orthogonal R ->
  orthogonal (kronecker_product Q R).
Proof. by move=> hQ hR; rewrite /orthogonal kron_tr kron_mul hQ hR kron1. Qed.

Lemma rotated_mat2d m n b (Q : 'M[F]_m) (R : 'M[F]_n) (v : params F m n b) :
  layer_params_to_mat2d (rotated Q R v) = with_constant b Q *m layer_params_to_mat2d v *m R^T.
Proof. by case: b v => //= v; rewrite mul_block_col !mul0mx mul1mx addr0 add0r mul_col_mx. Qed.
Lemma rotated_column m n b (Q : 'M[F]_m) (R : 'M[F]_n) (v : params F m n b) :
  tensors_to_column (rotated Q R v) = kronecker_product (with_constant b Q) R *m tensors_to_column v.
Proof. by rewrite !mat2d_col rotated_mat2d vec_mul. Qed.

Lemma same_output m n b (Q : 'M[F]_m) (R : 'M[F]_n) (v : params F m n b) x : orthogonal Q ->
  fc_output (rotated Q R v) (x *m Q^T) = fc_output v x *m R^T.
Proof.
move=> h; case: b v => /= v; rewrite ?mulmxDl !mulmxA -[x *m Q^T *m Q]mulmxA (orth_left h) mulmx1 //.
Qed.

Lemma ext_rotated m b (Q : 'M[F]_m) x : ext b (x *m Q^T) = ext b x *m (with_constant b Q)^T.
Proof.
case: b => //=; rewrite /append_homog tr_block_mx !trmx0 trmx1 mul_row_block.
by rewrite !mulmx0 mulmx1 addr0 add0r.
Qed.

Lemma gradient_vec m n b (locs : seq ('rV[F]_m * 'rV[F]_n)) :
  is_gradient locs (vec (\sum_(l <- locs) (ext b l.1)^T *m l.2) : 'cV[F]_(rows m b * n)).
Proof. by have [g h] := @gradient_exists F m n b; rewrite -(gradient_unique (h locs)). Qed.

Lemma rotated_gradient m n b (Q : 'M[F]_m) (R : 'M[F]_n) uses (c : 'cV[F]_(rows m b * n)) :
  is_gradient uses c ->
  is_gradient [seq (l.1 *m Q^T, l.2 *m R^T) | l <- uses] (kronecker_product (with_constant b Q) R *m c).
Proof.
move=> h; rewrite (gradient_unique h) vec_mul mulmx_sumr mulmx_suml.
rewrite (_ : \sum_(i <- uses) _ = \sum_(l <- [seq (l.1 *m Q^T, l.2 *m R^T) | l <- uses]) (ext b l.1)^T *m l.2).
  exact: gradient_vec.
rewrite big_map; apply: eq_bigr => l _ /=.
by rewrite ext_rotated trmx_mul trmxK !mulmxA.
Qed.

(** * Statistics *)
Lemma total_linear R S T m n m' n' (f : {linear 'M[F]_(m, n) -> 'M[F]_(m', n')})
    (c : nat -> nat -> nat -> 'M[F]_(m, n)) c' :
  (forall r s t, c' r s t = f (c r s t)) ->
  compute_total_new_cov R S T c' = f (compute_total_new_cov R S T c).
Proof.
move=> h; rewrite /compute_total_new_cov [f _]linearZ /= (linear_sum f); congr (_ *: _).
apply: eq_bigr => r _; rewrite [f _]linearZ /= (linear_sum f); congr (_ *: _).
by apply: eq_bigr => s _; rewrite (linear_sum f); apply: eq_bigr => t _.
Qed.
Lemma history_linear X Y m n m' n' normalize (f : {linear 'M[F]_(m, n) -> 'M[F]_(m', n')})
    (stat : X -> 'M[F]_(m, n)) (stat' : Y -> 'M[F]_(m', n')) (h : X -> Y) R S T updates :
  (forall x, stat' (h x) = f (stat x)) ->
  covariance_after normalize stat' R S T [seq (fun r s t => h (u.1 r s t), u.2) | u <- updates] =
  f (covariance_after normalize stat R S T updates).
Proof.
move=> hs; rewrite /covariance_after.
pose g (b : mav F m n) (u : (nat -> nat -> nat -> X) * (F * F)) := mav_add b
  (compute_total_new_cov R S T (fun r s t => stat (u.1 r s t))) u.2.1 u.2.2.
pose g' (b : mav F m' n') (u : (nat -> nat -> nat -> Y) * (F * F)) := mav_add b
  (compute_total_new_cov R S T (fun r s t => stat' (u.1 r s t))) u.2.1 u.2.2.
rewrite -/g -/g'.
have main (b : mav F m n) (b' : mav F m' n') : m_var b' = f (m_var b) -> m_weight b' = m_weight b ->
  m_var (foldl g' b' [seq (fun r s t => h (u.1 r s t), u.2) | u <- updates]) = f (m_var (foldl g b updates)) /\
  m_weight (foldl g' b' [seq (fun r s t => h (u.1 r s t), u.2) | u <- updates]) = m_weight (foldl g b updates).
  elim: updates b b' => [//|u us IH] b b' h1 h2; apply: IH; rewrite /g /g' /mav_add /=.
  - by rewrite h1 (total_linear R S T (fun r s t => hs (u.1 r s t))) (linearD f) !(linearZZ f).
  - by rewrite h2.
have [|//|e1 e2] := main (mav_init F m n) (mav_init F m' n'); first by rewrite linear0.
by rewrite /mav_value e1 e2; case: normalize; rewrite // (linearZZ f).
Qed.

Definition sides m n m' n' (L : 'M[F]_(m', m)) (R : 'M[F]_(n, n')) : {linear 'M[F]_(m, n) -> 'M[F]_(m', n')} :=
  [linear of mulmxr R \o mulmx L].
Lemma sidesE m n m' n' (L : 'M[F]_(m', m)) (R : 'M[F]_(n, n')) X : sides L R X = L *m X *m R.
Proof. by []. Qed.

Lemma cov_rotated n (Q : 'M[F]_n) rows :
  compute_cov [seq x *m Q^T | x <- rows] = sides Q Q^T (compute_cov rows).
Proof.
rewrite !compute_covE /avg size_map big_map (linearZZ (sides _ _)) (linear_sum (sides _ _)) /=; congr (_ *: _).
by apply: eq_bigr => x _; rewrite trmx_mul trmxK !mulmxA.
Qed.
Lemma fc_rotated n (Q : 'M[F]_n) rows :
  fc_new_cov [seq x *m Q^T | x <- rows] = sides Q Q^T (fc_new_cov rows).
Proof. exact: cov_rotated. Qed.
Lemma fcb_rotated n (Q : 'M[F]_n) rows :
  fc_new_cov_bias [seq x *m Q^T | x <- rows]
  = sides (with_constant true Q) (with_constant true Q)^T (fc_new_cov_bias rows).
Proof.
rewrite /fc_new_cov_bias -cov_rotated -!map_comp; congr compute_cov.
by apply: eq_map => x; exact: (ext_rotated true Q x).
Qed.
Lemma convin_rotated n (Q : 'M[F]_n) ex :
  convin_new_cov [seq [seq x *m Q^T | x <- e] | e <- ex] = sides Q Q^T (convin_new_cov ex).
Proof. by rewrite /convin_new_cov -map_flatten cov_rotated. Qed.
Lemma naivefull_rotated n (T : 'M[F]_n) (c : 'cV[F]_n) b :
  naivefull_new_cov (T *m c)^T b = sides T T^T (naivefull_new_cov c^T b).
Proof. by rewrite /naivefull_new_cov (linearZZ (sides _ _)) /= !trmxK trmx_mul !mulmxA. Qed.

(** * Damping *)
Lemma trace_rotated n (Q C : 'M[F]_n) : orthogonal Q -> \tr (Q *m C *m Q^T) = \tr C.
Proof. by move=> h; rewrite mxtrace_mulC mulmxA (orth_left h) mul1mx. Qed.
Lemma setup_rotated pow pt power m n (A A' : linop F m) (G G' : linop F n) d r Q R :
  orthogonal Q -> orthogonal R ->
  lo_dense A' = Q *m lo_dense A *m Q^T -> lo_dense G' = R *m lo_dense G *m R^T ->
  setup_damping pow pt power A' G' d r = setup_damping pow pt power A G d r.
Proof.
move=> hQ hR eA eG; rewrite /setup_damping /compute_pi_adjusted_damping; case: pt => //.
by rewrite /compute_pi_tracenorm !lo_traceE eA eG !trace_rotated.
Qed.

(** * Powers *)
Section Power.
Variable pow : F -> F -> F.
Lemma matpower_rotated n (Q M : 'M[F]_n) e P : orthogonal Q -> is_matpower pow M e P ->
  is_matpower pow (Q *m M *m Q^T) e (Q *m P *m Q^T).
Proof.
move=> hQ [V [d [hV d0 -> ->]]]; exists (Q *m V), d; split => //.
- by rewrite trmx_mul !mulmxA -[Q *m V *m V^T]mulmxA hV mulmx1.
- by rewrite trmx_mul !mulmxA.
- by rewrite trmx_mul !mulmxA.
Qed.
Lemma damped_rotated n (Q C : 'M[F]_n) d : orthogonal Q ->
  Q *m C *m Q^T + d *: 1%:M = Q *m (C + d *: 1%:M) *m Q^T.
Proof. by move=> h; rewrite mulmxDr mulmxDl -scalemxAr mulmx1 -scalemxAl h. Qed.
End Power.
Lemma psd_rotated n (Q C : 'M[F]_n) : psd C -> psd (Q *m C *m Q^T).
Proof.
move=> [h1 h2]; split; first by rewrite !trmx_mul trmxK h1 mulmxA.
by move=> x; have := h2 (Q^T *m x); rewrite trmx_mul trmxK !mulmxA.
Qed.

(** * Blocks *)
Section Blocks.
Variable eigh : forall n, 'M[F]_n -> 'rV[F]_n * 'M[F]_n.
Variable pow : F -> F -> F.
Hypothesis eighP : eigh_contract eigh.
Hypothesis powP : power_laws pow.
Variables (th : nat) (clip : F) (meth : posdef_inv_method).
Hypothesis clip0 : clip <= 0.
Notation up_to_date := (up_to_date eigh pow th clip meth).
Variables (m n : nat) (b : bool) (Q : 'M[F]_m) (R : 'M[F]_n).
Hypothesis hQ : orthogonal Q.
Hypothesis hR : orthogonal R.
Let L := with_constant b Q.
Let hL : orthogonal L := orth_constant b hQ.

Lemma kron_rotated regsA regsG (dampA dampG dampA' dampG' : nat -> F) (A : 'M[F]_(rows m b)) (G : 'M[F]_n)
    (sA sA' : dense F (rows m b)) (sG sG' : dense F n) ia ig renorm e (v : params F m n b) :
  up_to_date regsA dampA A sA -> up_to_date regsG dampG G sG ->
  up_to_date regsA dampA' (L *m A *m L^T) sA' -> up_to_date regsG dampG' (R *m G *m R^T) sG' ->
  psd A -> psd G -> 0 < dampA ia -> 0 < dampG ig -> 0 < renorm ->
  dampA' ia = dampA ia -> dampG' ig = dampG ig ->
  has_power regsA regsG ia ig e ->
  exists w, kron_multiply_matpower pow (fun e => get_matpower sA dampA e ia)
              (fun e => get_matpower sG dampG e ig) renorm v e = Ok w /\
            kron_multiply_matpower pow (fun e => get_matpower sA' dampA' e ia)
              (fun e => get_matpower sG' dampG' e ig) renorm (rotated Q R v) e = Ok (rotated Q R w).
Proof.
move=> uA uG uA' uG' hA hG pA pG pr eA eG he.
have pA' : 0 < dampA' ia by rewrite eA.
have pG' : 0 < dampG' ig by rewrite eG.
have [w [e1 h1]] := kron_power eighP powP clip0 uA uG hA hG pA pG pr v he.
have [w' [e2 h2]] := kron_power eighP powP clip0 uA' uG' (psd_rotated L hA) (psd_rotated R hG) pA' pG' pr
  (rotated Q R v) he.
have [M [hM cM]] := h1 _ _ _ (column_is_column v) (column_is_column w) (is_kron_model _ _).
have [M' [hM' cM']] := h2 _ _ _ (column_is_column _) (column_is_column w') (is_kron_model _ _).
exists w; split => //; rewrite e2; congr Ok; apply: column_inj.
pose T := kronecker_product L R; have hT : orthogonal T := orth_kron hL hR.
have hM2 : is_matpower pow (renorm *: kronecker_product (L *m A *m L^T + dampA' ia *: 1%:M)
   (R *m G *m R^T + dampG' ig *: 1%:M)) e (T *m M *m T^T).
  rewrite eA eG (damped_rotated _ _ hL) (damped_rotated _ _ hR) -!kron_mul -kron_tr -/T.
  by rewrite scalemxAl scalemxAr; apply: matpower_rotated.
rewrite cM' (is_matpower_unique hM' hM2) !rotated_column -/L -/T cM.
by rewrite -!mulmxA [T^T *m _]mulmxA (orth_left hT) mul1mx.
Qed.

Lemma full_rotated regs (damp damp' : nat -> F) C (s s' : dense F (rows m b * n)) id e (v : params F m n b) :
  up_to_date regs damp C s ->
  up_to_date regs damp' (kronecker_product L R *m C *m (kronecker_product L R)^T) s' ->
  psd C -> 0 < damp id -> damp' id = damp id -> e = 1 \/ List.In (RegMatpower e id) regs ->
  exists w, full_multiply (get_matpower s damp e id) v false = Ok w /\
            full_multiply (get_matpower s' damp' e id) (rotated Q R v) false = Ok (rotated Q R w).
Proof.
move=> u u' hC p ed he.
have p' : 0 < damp' id by rewrite ed.
pose T := kronecker_product L R; have hT : orthogonal T := orth_kron hL hR.
have [w [e1 h1]] := full_power eighP powP clip0 u hC p v he.
have [w' [e2 h2]] := full_power eighP powP clip0 u' (psd_rotated T hC) p' (rotated Q R v) he.
have [P [hP cP]] := h1 _ _ (column_is_column v) (column_is_column w).
have [P' [hP' cP']] := h2 _ _ (column_is_column _) (column_is_column w').
exists w; split => //; rewrite e2; congr Ok; apply: column_inj.
move: hP'; rewrite ed (damped_rotated _ _ hT) => hP'.
rewrite cP' (is_matpower_unique hP' (matpower_rotated hT hP)) !rotated_column -/L -/T cP.
by rewrite -!mulmxA [T^T *m _]mulmxA (orth_left hT) mul1mx.
Qed.
End Blocks.

(** * Renumbering and diagonal factors *)
Definition selects n (Q : 'M[F]_n) (f : 'I_n -> 'I_n) : Prop := forall i k, Q i k = (f i == k)%:R.
Lemma renumbering_selects n (Q : 'M[F]_n) : renumbering Q -> exists f, selects Q f.
Proof. by move=> [s ->]; exists s => i k; rewrite !mxE. Qed.
Lemma selects_constant m b (Q : 'M[F]_m) f : selects Q f -> exists f', selects (with_constant b Q) f'.
Proof.
case: b => h; last by exists f.
exists (fun i : 'I_(m + 1) => match split i with inl a => lshift 1 (f a) | inr c => rshift m c end) => i k.
rewrite !mxE; case: splitP => a ha; rewrite mxE; case: splitP => c hc.
- by rewrite h -!val_eqE /= hc.
- by rewrite mxE -val_eqE /= hc ltn_eqF // ltn_addr.
- by rewrite mxE -val_eqE /= hc gtn_eqF // ltn_addr.
- by rewrite mxE -!val_eqE /= hc eqn_add2l.
Qed.
Lemma select_left m n (Q : 'M[F]_m) f (X : 'M[F]_(m, n)) : selects Q f -> Q *m X = \matrix_(i, j) X (f i) j.
Proof.
move=> h; apply/matrixP => i j; rewrite !mxE (bigD1 (f i)) //= h eqxx mul1r big1 ?addr0 // => k hk.
by rewrite h eq_sym (negbTE hk) mul0r.
Qed.
Lemma select_right m n (Q : 'M[F]_n) f (X : 'M[F]_(m, n)) : selects Q f ->
  X *m Q^T = \matrix_(i, j) X i (f j).
Proof.
move=> h; rewrite -[X]trmxK -trmx_mul (select_left _ h); apply/matrixP => i j; by rewrite !mxE.
Qed.
Lemma square_renumbered n (Q : 'M[F]_n) f x : selects Q f -> square_row (x *m Q^T) = square_row x *m Q^T.
Proof. by move=> h; rewrite !(select_right _ h); apply/matrixP => i j; rewrite !mxE. Qed.
Lemma fcdiag_renumbered m n (Q : 'M[F]_m) (R : 'M[F]_n) f g ex : selects Q f -> selects R g ->
  fcdiag_new_cov [seq (e.1 *m Q^T, e.2 *m R^T) | e <- ex] = sides Q R^T (fcdiag_new_cov ex).
Proof.
move=> hQ hR; rewrite /fcdiag_new_cov size_map big_map (linearZZ (sides _ _)) (linear_sum (sides _ _)) /=; congr (_ *: _).
apply: eq_bigr => e _; rewrite (square_renumbered _ hQ) (square_renumbered _ hR).
by rewrite trmx_mul trmxK !mulmxA.
Qed.
Lemma convdiag_renumbered m n (Q : 'M[F]_m) (R : 'M[F]_n) f g ex : selects Q f -> selects R g ->
  convdiag_new_cov [seq [seq (l.1 *m Q^T, l.2 *m R^T) | l <- e] | e <- ex] = sides Q R^T (convdiag_new_cov ex).
Proof.
move=> hQ hR; rewrite /convdiag_new_cov size_map big_map (linearZZ (sides _ _)) (linear_sum (sides _ _)) /=; congr (_ *: _).
apply: eq_bigr => e _; rewrite (select_right _ hR) (select_left _ hQ); apply/matrixP => i j; rewrite !mxE.
have -> : convdiag_case_gradient [seq (l.1 *m Q^T, l.2 *m R^T) | l <- e] = Q *m convdiag_case_gradient e *m R^T.
  rewrite /convdiag_case_gradient big_map mulmx_sumr mulmx_suml; apply: eq_bigr => l _ /=.
  by rewrite trmx_mul trmxK !mulmxA.
by rewrite (select_right _ hR) (select_left _ hQ) !mxE.
Qed.
Lemma diagkron_renumbered n (Q : 'M[F]_n) f rows : selects Q f ->
  diagkron_new_cov [seq x *m Q^T | x <- rows] = sides 1%:M Q^T (diagkron_new_cov rows).
Proof.
move=> h; rewrite sidesE mul1mx /diagkron_new_cov size_map big_map -scalemxAl mulmx_suml; congr (_ *: _).
by apply: eq_bigr => x _; rewrite (square_renumbered _ h).
Qed.
Lemma naivediag_renumbered n (T : 'M[F]_n) f (c : 'cV[F]_n) b : selects T f ->
  naivediag_new_cov (T *m c)^T b = sides 1%:M T^T (naivediag_new_cov c^T b).
Proof.
by move=> h; rewrite sidesE mul1mx /naivediag_new_cov trmx_mul (square_renumbered _ h) scalemxAl.
Qed.
Lemma kron_selects m n (Q : 'M[F]_m) (R : 'M[F]_n) f g : selects Q f -> selects R g ->
  exists h, selects (kronecker_product Q R) h.
Proof.
move=> hQ hR; exists (fun k => rm_pos (f (rm_row k)) (g (rm_col k))) => i k; rewrite mxE hQ hR.
rewrite -{3}(rm_posK k) -natrM mulnb; congr (nat_of_bool _)%:R.
apply/andP/eqP => [[/eqP -> /eqP ->] //|h].
by split; apply/eqP; [rewrite -(rm_rowK (f _) (g (rm_col i))) h rm_rowK
  |rewrite -(rm_colK (f (rm_row i)) (g _)) h rm_colK].
Qed.

Lemma diagonal_entries pow m n b (cov : 'M[F]_(rows m b, n)) e d t (v : params F m n b) :
  layer_params_to_mat2d (diagonal_multiply (diag_get_matpower pow (matrix_diagonal cov) e d) v t)
  = \matrix_(i, j) (pow (cov i j + d) e * layer_params_to_mat2d v i j).
Proof.
apply: (can_inj (@vecK _ _ _)); rewrite -mat2d_col /diagonal_multiply /full_multiply_matrix tensors_of_column.
apply/matrixP => p z; rewrite ord1 mat2d_col -(rm_posK p) vecE !mxE.
by rewrite rm_rowK rm_colK.
Qed.
Lemma mat2d_inj m n b (v w : params F m n b) : layer_params_to_mat2d v = layer_params_to_mat2d w -> v = w.
Proof. by move=> h; rewrite -(mat2d_of_layer v) h mat2d_of_layer. Qed.

Lemma diagonal_renumbered pow m n b (Q : 'M[F]_m) (R : 'M[F]_n) (cov : 'M[F]_(rows m b, n)) e d t
    (v : params F m n b) : renumbering Q -> renumbering R ->
  diagonal_multiply (diag_get_matpower pow (matrix_diagonal (with_constant b Q *m cov *m R^T)) e d)
    (rotated Q R v) t =
  rotated Q R (diagonal_multiply (diag_get_matpower pow (matrix_diagonal cov) e d) v t).
Proof.
move=> /renumbering_selects [f hQ] /renumbering_selects [g hR].
have [f' hL] := selects_constant b hQ.
apply: mat2d_inj; rewrite diagonal_entries !rotated_mat2d diagonal_entries.
rewrite !(select_right _ hR) !(select_left _ hL); apply/matrixP => i j; by rewrite !mxE.
Qed.
End Rotate.
