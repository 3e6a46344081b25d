(** Property theorems C122: what a Kronecker-factored block of a fully connected layer
    approximates, and when it is exact. *)
From mathcomp Require Import all_ssreflect all_algebra.
From Verif.Base Require Import Py.
From Verif.Blocks Require Import Model Spec MatProofs PsdProofs EigProofs FactorProofs ServeProofs BlockProofs
  StatProofs SuaProofs EndProofs UnitsProofs RotateProofs ExactSpec ExactProofs.
Set Implicit Arguments.
Unset Strict Implicit.
Unset Printing Implicit Defensive.
Import GRing.Theory Num.Theory Order.TTheory.
Local Open Scope ring_scope.

(** For every mini-batch, the block of the curvature matrix (the mean of the outer products of
    the gradients of the examples) and the Kronecker product of the two statistics differ
    exactly by the covariance, over the mini-batch, of the second moments of the inputs with
    those of the output gradients. *)
Theorem C122_error :
  forall (F : rcfType) (m n : nat) (has_bias : bool) (examples : seq (example F m n))
         (B K : 'M[F]_(rows m has_bias * n)),
    is_block examples B ->
    is_kron (input_statistic has_bias (unzip1 examples)) (fc_new_cov (unzip2 examples)) K ->
    forall D : example F m n -> example F m n -> 'M[F]_(rows m has_bias * n),
      (forall e e', is_kron (input_moment has_bias e.1 - input_moment has_bias e'.1)
                            (output_moment e.2 - output_moment e'.2) (D e e')) ->
      B - K = (2%:R * (size examples)%:R ^+ 2)^-1 *: \sum_(e <- examples) \sum_(e' <- examples) D e e'.
Proof.
move=> F m n b ex B K hB /is_kron_unique -> D hD; rewrite (block_error hB); congr (_ *: _).
by apply: eq_bigr => e _; apply: eq_bigr => e' _; rewrite (is_kron_unique (hD e e')).
Qed.
Print Assumptions C122_error.

(** So the factorisation is exact if any two examples agree in the second moment of the input
    or in that of the output gradient: for a mini-batch of one example, for inputs that are all
    the same, and for output gradients that are all the same up to sign. *)
Theorem C122_exact :
  forall (F : rcfType) (m n : nat) (has_bias : bool) (examples : seq (example F m n))
         (B : 'M[F]_(rows m has_bias * n)),
    is_block examples B ->
    (size examples = 1)%N \/
    (exists x, forall e, e \in examples -> e.1 = x) \/
    (exists g, forall e, e \in examples -> e.2 = g \/ e.2 = - g) ->
    is_kron (input_statistic has_bias (unzip1 examples)) (fc_new_cov (unzip2 examples)) B.
Proof.
move=> F m n b ex B hB h.
rewrite {1}(block_same hB); first exact: is_kron_model.
move=> i j hi hj /=; case: h => [s1|[[x hx]|[g hg]]].
- by move: hi hj; rewrite s1 !ltnS !leqn0 => /eqP -> /eqP ->; left.
- by left; rewrite !hx // mem_nth.
- right; rewrite !output_momentE.
  case: (hg _ (mem_nth (0, 0) hi)) => ->; case: (hg _ (mem_nth (0, 0) hj)) => ->;
    by rewrite ?[(- _)^T]linearN /= ?mulNmx ?mulmxN ?opprK.
Qed.
Print Assumptions C122_exact.

(** And if inputs and output gradients are independent: every input occurs with every output
    gradient. *)
Theorem C122_independent :
  forall (F : rcfType) (m n : nat) (has_bias : bool) (xs : seq 'rV[F]_m) (gs : seq 'rV[F]_n)
         (B : 'M[F]_(rows m has_bias * n)),
    let examples := [seq (x, g) | x <- xs, g <- gs] in
    is_block examples B ->
    is_kron (input_statistic has_bias (unzip1 examples)) (fc_new_cov (unzip2 examples)) B.
Proof.
move=> F m n b xs gs B ex hB; rewrite {1}(proj1 (block_product hB)); exact: is_kron_model.
Qed.
Print Assumptions C122_independent.

(** In these cases the damped block multiplies by the block of the curvature matrix, plus the
    product of the two dampings, plus what the factored damping adds to either factor; and its
    inverse solves the corresponding equations. *)
Theorem C122_product :
  forall (F : rcfType) (eigh : forall n, 'M[F]_n -> 'rV[F]_n * 'M[F]_n) (pow : F -> F -> F)
         (threshold : nat) (clip : F) (meth : posdef_inv_method) (m n : nat) (has_bias : bool)
         (examples : seq (example F m n)) (B A1 G1 : 'M[F]_(rows m has_bias * n))
         (regsA regsG : seq (registration F)) (dampA dampG : nat -> F)
         (inputs : dense F (rows m has_bias)) (outputs : dense F n) (ia ig : nat)
         (v : params F m n has_bias),
    let A := input_statistic has_bias (unzip1 examples) in
    let G := fc_new_cov (unzip2 examples) in
    eigh_contract eigh -> power_laws pow -> clip <= 0 ->
    is_block examples B -> is_kron A G B -> is_kron A 1%:M A1 -> is_kron 1%:M G G1 ->
    up_to_date eigh pow threshold clip meth regsA dampA A inputs ->
    up_to_date eigh pow threshold clip meth regsG dampG G outputs ->
    0 < dampA ia -> 0 < dampG ig ->
    let multiply := kron_multiply_matpower pow (fun e => get_matpower inputs dampA e ia)
                      (fun e => get_matpower outputs dampG e ig) 1 in
    let damped := B + dampG ig *: A1 + dampA ia *: G1 + (dampA ia * dampG ig) *: 1%:M in
    (exists w, multiply v 1 = Ok w /\
       forall cv cw, is_column v cv -> is_column w cw -> cw = damped *m cv) /\
    (List.In (RegMatpower (-1) ia) regsA -> List.In (RegMatpower (-1) ig) regsG ->
     exists w, multiply v (-1) = Ok w /\
       forall cv cw, is_column v cv -> is_column w cw -> damped *m cw = cv).
Proof.
move=> F eigh pow th clip meth m n b ex B A1 G1 rA rG dA dG sA sG ia ig v A G he hp hc hB kB kA kG uA uG pA pG /=.
have hA : psd A by rewrite /A input_avg; apply: psd_avg => x; exact: psd_outer.
have hG : psd G by rewrite /G /fc_new_cov compute_covE; apply: psd_avg => x; exact: psd_outer.
have KE : kronecker_product (A + dA ia *: 1%:M) (G + dG ig *: 1%:M)
  = B + dG ig *: A1 + dA ia *: G1 + (dA ia * dG ig) *: 1%:M.
  rewrite (is_kron_unique kB) (is_kron_unique kA) (is_kron_unique kG).
  by rewrite damped_kron.
split.
- have [w [e1 h1]] := kron_power he hp hc uA uG hA hG pA pG ltr01 v (or_introl erefl).
  exists w; split=> // cv cw cV cW; have [M [hM ->]] := h1 _ _ _ cV cW (is_kron_model _ _).
  by rewrite (matpower_oneE hp hM) scale1r KE.
- move=> r1 r2; have [w [e1 h1]] := kron_power he hp hc uA uG hA hG pA pG ltr01 v (or_intror (conj r1 r2)).
  exists w; split=> // cv cw cV cW; have [M [hM ->]] := h1 _ _ _ cV cW (is_kron_model _ _).
  move: hM; rewrite scale1r => hM; have [pd1 _] := matpower_pd hp hM.
  by rewrite (matpower_invE hp hM) mulmxA -KE mulmxV ?mul1mx // pd_unit.
Qed.
Print Assumptions C122_product.

(** Every mini-batch has its block, and in general the factorisation is not exact: one input,
    one output, no bias, one example with input and output gradient 1 and one with 0; the block
    is 1/2 and the Kronecker product 1/4. *)
Example C122_blocks_exist : forall (F : rcfType) m n has_bias (examples : seq (example F m n)),
  exists B : 'M[F]_(rows m has_bias * n), is_block examples B.
Proof. by move=> F m n b ex; exact: block_exists. Qed.
Example C122_not_exact : forall F : rcfType,
  exists (examples : seq (example F 1 1)) (B : 'M[F]_(rows 1 false * 1)),
    is_block examples B /\
    ~ is_kron (input_statistic false (unzip1 examples)) (fc_new_cov (unzip2 examples)) B.
Proof.
move=> F; pose ex : seq (example F 1 1) := [:: (1%:M, 1%:M); (0, 0)].
have [B hB] := block_exists false ex; exists ex, B; split=> // /is_kron_unique h.
have := block_entry (b := false) (rm_pos (0 : 'I_1) (0 : 'I_1)) (rm_pos (0 : 'I_1) (0 : 'I_1)) hB.
rewrite h (@kron_avg F 1 1 false) !rm_rowK !rm_colK /ex !big_cons !big_nil !input_momentE !output_momentE /=.
rewrite ?trmx1 ?mul1mx ?trmx0 ?mul0mx ?mulmx1 !mxE /= ?mul0r ?addr0 ?mulr1 => /eqP.
by rewrite -subr_eq0 -{3}[2^-1]mulr1 -mulrBr mulf_eq0 invr_eq0 pnatr_eq0 /= subr_eq0 invr_eq1 (eqr_nat F 2 1).
Qed.
