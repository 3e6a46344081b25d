From mathcomp Require Import all_ssreflect all_algebra.
From Verif.Base Require Import Py.
From Verif.Blocks Require Import Model Spec DescentSpec MatProofs PsdProofs EigProofs FactorProofs
  ServeProofs BlockProofs StatProofs SuaProofs EndProofs.
Set Implicit Arguments.
Unset Strict Implicit.
Unset Printing Implicit Defensive.
Import GRing.Theory Num.Theory Order.TTheory.
Local Open Scope ring_scope.

Section Lin.
Variable F : rcfType.
Variable pow : F -> F -> F.
Hypothesis powP : power_laws pow.

Lemma pd_kron m n (A : 'M[F]_m) (G : 'M[F]_n) : pd A -> pd G -> pd (kronecker_product A G).
Proof.
move=> hA hG; have [a1 _ _ a2] := chol_correct hA; have [g1 _ _ g2] := chol_correct hG.
rewrite -a1 -g1 -kron_mul -kron_tr; apply: pd_gram.
have h : kronecker_product (tf_cholesky A) (tf_cholesky G) *m
   kronecker_product (invmx (tf_cholesky A)) (invmx (tf_cholesky G)) = 1%:M.
  by rewrite kron_mul !mulmxV // kron1.
by case: (mulmx1_unit h).
Qed.
Lemma pdZ n a (A : 'M[F]_n) : 0 < a -> pd A -> pd (a *: A).
Proof.
move=> a0 [ha pa]; split=> [|x nz]; first by rewrite linearZ /= ha.
by rewrite -/(qf _ _) qfZ; exact: mulr_gt0 a0 (pa x nz).
Qed.
Lemma pd_diag n (d : 'rV[F]_n) : (forall i, 0 < d 0 i) -> pd (diag_mx d).
Proof.
move=> h; split=> [|x nz]; first by rewrite tr_diag_mx.
have -> : diag_mx d = (diag_mx (\row_i Num.sqrt (d 0 i)))^T *m diag_mx (\row_i Num.sqrt (d 0 i)).
  rewrite tr_diag_mx; apply/matrixP => i j; rewrite mul_diag_mx !mxE.
  by have [->|_] := eqVneq i j; rewrite ?mulr0 // !mulr1n -expr2 sqr_sqrtr // ltW.
rewrite -/(qf _ _) qf_outer; apply: sumsq_gt0; apply: contraNneq nz => hx.
apply/eqP/matrixP => i z; rewrite ord1 mxE.
have := congr1 (fun A : 'cV__ => A i 0) hx; rewrite mul_diag_mx !mxE => /eqP.
by rewrite mulf_eq0 sqrtr_eq0 leNgt h /= => /eqP.
Qed.

(** Last occurrence of an op. *)
Lemma last_run n (k : nat) (l : seq (event F n)) :
  ~ runs k l \/ exists pre d post, l = pre ++ RunOp n k d :: post /\ ~ runs k post.
Proof.
elim: l => [|e l IH]; first by left; case=> d [].
case: IH => [no|[pre [d [post [-> h]]]]]; last by right; exists (e :: pre), d, post.
case: e => [c|j d].
  by left=> -[d [//|h]]; apply: no; exists d.
have [->|ne] := eqVneq j k; first by right; exists [::], d, l.
by left=> -[d' [[e _]|h]]; [rewrite e eqxx in ne | apply: no; exists d'].
Qed.
Lemma cov_after_in n c (l : seq (event F n)) :
  cov_after c l = c \/ List.In (NewCov (cov_after c l)) l.
Proof.
elim: l c => [|[c'|k d] l IH] c /=; first by left.
  by right; case: (IH c') => [->|h]; [left|right].
by case: (IH c) => [h|h]; [left|right; right].
Qed.
Lemma legal_cov n id (pre post : seq (event F n)) : legal_history id (pre ++ post) -> psd (cov_after 0 pre).
Proof.
move=> [h _]; case: (cov_after_in 0 pre) => [->|hin]; first exact: psd0.
by apply: h; apply/List.in_or_app; left.
Qed.

Section Dense.
Variable eigh : forall n, 'M[F]_n -> 'rV[F]_n * 'M[F]_n.
Hypothesis eighP : eigh_contract eigh.
Variables (n th : nat) (clip : F) (meth : posdef_inv_method) (init : 'M[F]_n).
Hypothesis clip0 : clip <= 0.
Variables (regs : seq (registration F)) (ops : seq (seq (assignment F))) (s0 : dense F n).
Hypothesis fin : finalize th init regs = Ok (ops, s0).

Lemma served_signs l damp' ex id : List.In (RegMatpower ex id) regs -> ex <> 1 ->
  legal_history id l -> psd init ->
  exists P, get_matpower (run eigh pow clip meth ops s0 l) damp' ex id = Ok (FullMatrix P) /\
    psd P /\ (pd init \/ each_ran (size ops) l -> pd P).
Proof.
move=> hr ne hl hi.
have [k [hk [h1 h2]]] := served_matpower eighP powP meth clip0 fin hr ne.
case: (last_run k l) => [no|[pre [d [post [el hp]]]]].
  exists init; split; first exact: h2.
  by split=> // -[//|h]; case: no; apply: h.
have hd : 0 < d id by case: hl => _; apply; rewrite el; apply/List.in_or_app; right; left.
have hc : psd (cov_after 0 pre) by rewrite el in hl; exact: legal_cov hl.
have [P [eP hP]] := h1 pre d post hp hc hd damp'.
have [_ pP] := matpower_pd powP hP.
by rewrite el; exists P; split=> //; split=> //; exact: pd_psd.
Qed.
End Dense.

(** * Inner products *)
Section Inner.
Variables (m n : nat) (b : bool).
Implicit Types v w : params F m n b.

Lemma inner_quad (K : 'M[F]_(rows m b * n)) v w x :
  tensors_to_column w = K *m tensors_to_column v -> is_inner v w x -> x = qf K (tensors_to_column v).
Proof.
move=> e [cv [cw [/is_column_unique -> /is_column_unique -> ->]]].
rewrite e /qf -mulmxA [RHS]mxE; apply: eq_bigr => p _.
by congr (_ * _); rewrite mxE.
Qed.
Lemma inner_exists v w : exists x, is_inner v w x.
Proof. by eexists; do 2 eexists; split; [exact: column_is_column|exact: column_is_column|]. Qed.
Lemma nonzero_column v : nonzero v -> tensors_to_column v != 0.
Proof.
move=> [p [x [h nx]]]; apply/negP => /eqP z; apply: nx.
case: b v h z => [[w c]|w] h z.
- case: h => [[i [j [ep ex]]]|[j [ep ex]]].
  + have := column_is_column (m := m) (n := n) (b := true) (w, c) => hc.
    have hp : (p < rows m true * n)%N.
      by rewrite /rows ep mulnDl (leq_trans (rm_pos_proof i j)) ?leq_addr.
    have := hc (Ordinal hp); rewrite z mxE /=.
    case=> [[i' [j' [e' ->]]]|[j' [e' ->]]].
      by rewrite ep in e'; case: (rm_pos_inj e') => <- <-.
    by move: (rm_pos_proof i j); rewrite -ep e' ltnNge leq_addr.
  + have := column_is_column (m := m) (n := n) (b := true) (w, c) => hc.
    have hp : (p < rows m true * n)%N by rewrite /rows ep mulnDl mul1n ltn_add2l.
    have := hc (Ordinal hp); rewrite z mxE /=.
    case=> [[i' [j' [e' _]]]|[j' [e' ->]]].
      by move: (rm_pos_proof i' j'); rewrite -e' ep ltnNge leq_addr.
    by rewrite ep in e'; move/addnI: e' => /val_inj <-.
- case: h => i [j [ep ex]].
  have := column_is_column (m := m) (n := n) (b := false) w => hc.
  have hp : (p < rows m false * n)%N by rewrite ep; exact: rm_pos_proof.
  have := hc (Ordinal hp); rewrite z mxE /= => -[i' [j' [e' ->]]].
  by rewrite ep in e'; case: (rm_pos_inj e') => <- <-.
Qed.

Lemma quad_signs (K : 'M[F]_(rows m b * n)) v w x :
  tensors_to_column w = K *m tensors_to_column v -> is_inner v w x ->
  (psd K -> 0 <= x) /\ (pd K -> nonzero v -> 0 < x).
Proof.
move=> e /(inner_quad e) ->; split; first by case=> _; apply.
by move=> [_ h] /nonzero_column nz; apply: h.
Qed.

Lemma kron_signs (l : linop F (rows m b)) (r : linop F n) left right renorm v e :
  left e = Ok l -> right e = Ok r -> 0 < renorm -> psd (lo_dense l) -> psd (lo_dense r) ->
  exists w, kron_multiply_matpower pow left right renorm v e = Ok w /\
   forall x, is_inner v w x ->
     0 <= x /\ (pd (lo_dense l) -> pd (lo_dense r) -> nonzero v -> 0 < x).
Proof.
move=> el er r0 pl pr; rewrite /kron_multiply_matpower el er; eexists; split; first reflexivity.
move=> x hx; pose K := pow renorm e *: kronecker_product (lo_dense l) (lo_dense r).
have p0 := pow_pos powP e r0.
have hc : tensors_to_column (multiply_factored_matrix l r v (pow renorm e) false false) =
   K *m tensors_to_column v.
  by rewrite factored_column /= (proj1 pr) /K -scalemxAl.
have [h1 h2] := quad_signs hc hx; split.
  by apply: h1; apply: psdZ; [exact: ltW|exact: psd_kron].
by move=> dl dr; apply: h2; apply: pdZ => //; exact: pd_kron.
Qed.

Lemma full_signs (o : linop F (rows m b * n)) v : psd (lo_dense o) ->
  exists w, full_multiply (Ok o) v false = Ok w /\
   forall x, is_inner v w x -> 0 <= x /\ (pd (lo_dense o) -> nonzero v -> 0 < x).
Proof.
move=> po; eexists; split; first reflexivity; move=> x hx.
have hc : tensors_to_column (full_multiply_matrix o v false) = lo_dense o *m tensors_to_column v.
  by rewrite /full_multiply_matrix tensors_of_column lo_matmulE.
by have [h1 h2] := quad_signs hc hx; split; [exact: h1|exact: h2].
Qed.

Lemma diag_power_pd k (d : 'rV[F]_k) e damping : (forall i, 0 <= d 0 i) -> 0 < damping ->
  pd (lo_dense (diag_get_matpower pow d e damping)).
Proof.
by move=> h d0; apply: pd_diag => i; rewrite mxE; apply: pow_pos => //; apply: ltr_paddl.
Qed.
End Inner.
End Lin.
