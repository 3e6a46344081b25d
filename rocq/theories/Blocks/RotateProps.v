(** Property theorems C121 (the part about layers, factors and blocks): rotating or renumbering
    the units a layer reads or produces does not matter. *)
From mathcomp Require Import all_ssreflect all_fingroup all_algebra.
From Verif.Base Require Import Py.
From Verif.Blocks Require Import Model Spec MatProofs PsdProofs EigProofs FactorProofs ServeProofs BlockProofs
  StatProofs SuaProofs EndProofs UnitsProofs RotateSpec RotateProofs.
Set Implicit Arguments.
Unset Strict Implicit.
Unset Printing Implicit Defensive.
Import GRing.Theory Num.Theory Order.TTheory.
Local Open Scope ring_scope.

(** The layer in the other coordinates computes the same outputs, in the other coordinates, and
    the gradient of a function of the outputs is the gradient in the other coordinates. *)
Theorem C121_same_layer :
  forall (F : rcfType) (m n : nat) (has_bias : bool) (Q : 'M[F]_m) (R : 'M[F]_n),
    orthogonal Q ->
    (forall (v : params F m n has_bias) x, fc_output (rotated Q R v) (x *m Q^T) = fc_output v x *m R^T) /\
    (forall (g : params F m n has_bias) c c' uses,
       is_column g c -> is_column (rotated Q R g) c' -> is_gradient uses c ->
       is_gradient [seq (l.1 *m Q^T, l.2 *m R^T) | l <- uses] c').
Proof.
move=> F m n b Q R hQ; split=> [v x|g c c' uses /is_column_unique -> /is_column_unique -> h].
- exact: same_output.
- by rewrite rotated_column; apply: rotated_gradient.
Qed.
Print Assumptions C121_same_layer.

(** After any history of updates the covariances of the inputs (with the bias's constant, which
    stays), of the output gradients, of convolutions and of naive full factors are those of the
    other coordinates. *)
Theorem C121_covariances :
  forall (F : rcfType) (normalize : bool) (r s t n : nat) (Q : 'M[F]_n),
    let moved X (f : X -> X) (updates : seq ((nat -> nat -> nat -> X) * (F * F))) :=
      [seq (fun r s t => f (u.1 r s t), u.2) | u <- updates] in
    let after X k l (stat : X -> 'M[F]_(k, l)) := covariance_after normalize stat r s t in
    let vectors := map (fun x : 'rV[F]_n => x *m Q^T) in
    [/\ forall us, after _ _ _ (@fc_new_cov F n) (moved _ vectors us)
          = Q *m after _ _ _ (@fc_new_cov F n) us *m Q^T,
        forall us, after _ _ _ (@fc_new_cov_bias F n) (moved _ vectors us)
          = with_constant true Q *m after _ _ _ (@fc_new_cov_bias F n) us *m (with_constant true Q)^T,
        forall us, after _ _ _ (@convin_new_cov F n) (moved _ (map vectors) us)
          = Q *m after _ _ _ (@convin_new_cov F n) us *m Q^T
      & forall b us, after _ _ _ (fun g : 'rV[F]_n => naivefull_new_cov g b) (moved _ (fun g => g *m Q^T) us)
          = Q *m after _ _ _ (fun g : 'rV[F]_n => naivefull_new_cov g b) us *m Q^T].
Proof.
move=> F nz r s t n Q /=; split.
- by move=> us; apply: (@history_linear F _ _ _ _ _ _ nz (sides Q Q^T)) => x; apply: fc_rotated.
- by move=> us; apply: (@history_linear F _ _ _ _ _ _ nz (sides (with_constant true Q) (with_constant true Q)^T)) => x; apply: fcb_rotated.
- by move=> us; apply: (@history_linear F _ _ _ _ _ _ nz (sides Q Q^T)) => x; apply: convin_rotated.
- move=> b us; apply: (@history_linear F _ _ _ _ _ _ nz (sides Q Q^T) (fun g => naivefull_new_cov g b)
    (fun g => naivefull_new_cov g b) (fun g => g *m Q^T)) => x.
  by have := naivefull_rotated Q x^T b; rewrite trmx_mul !trmxK.
Qed.
Print Assumptions C121_covariances.

(** Those of diagonal factors are, when the units are only renumbered. *)
Theorem C121_diagonal_covariances :
  forall (F : rcfType) (normalize : bool) (r s t m n : nat) (Q : 'M[F]_m) (R : 'M[F]_n),
    let moved X (f : X -> X) (updates : seq ((nat -> nat -> nat -> X) * (F * F))) :=
      [seq (fun r s t => f (u.1 r s t), u.2) | u <- updates] in
    let after X k l (stat : X -> 'M[F]_(k, l)) := covariance_after normalize stat r s t in
    let examples := map (fun e : 'rV[F]_m * 'rV[F]_n => (e.1 *m Q^T, e.2 *m R^T)) in
    let L := with_constant true Q in
    renumbering Q -> renumbering R ->
    [/\ forall us, after _ _ _ (@fcdiag_new_cov F m n) (moved _ examples us)
          = Q *m after _ _ _ (@fcdiag_new_cov F m n) us *m R^T,
        forall us, after _ _ _ (@fcdiag_new_cov_bias F m n) (moved _ examples us)
          = L *m after _ _ _ (@fcdiag_new_cov_bias F m n) us *m R^T,
        forall us, after _ _ _ (@convdiag_new_cov F m n) (moved _ (map examples) us)
          = Q *m after _ _ _ (@convdiag_new_cov F m n) us *m R^T
      & forall us, after _ _ _ (@convdiag_new_cov_bias F m n) (moved _ (map examples) us)
          = L *m after _ _ _ (@convdiag_new_cov_bias F m n) us *m R^T] /\
    (forall us, after _ _ _ (@diagkron_new_cov F n) (moved _ (map (fun x => x *m R^T)) us)
       = after _ _ _ (@diagkron_new_cov F n) us *m R^T) /\
    (forall b us, after _ _ _ (fun g : 'rV[F]_n => naivediag_new_cov g b) (moved _ (fun g => g *m R^T) us)
       = after _ _ _ (fun g : 'rV[F]_n => naivediag_new_cov g b) us *m R^T).
Proof.
move=> F nz r s t m n Q R /= /renumbering_selects [f hQ] /renumbering_selects [g hR].
have [f' hL] := selects_constant true hQ.
split; first split.
- by move=> us; apply: (@history_linear F _ _ _ _ _ _ nz (sides Q R^T)) => x; apply: (fcdiag_renumbered _ hQ hR).
- move=> us; apply: (@history_linear F _ _ _ _ _ _ nz (sides (with_constant true Q) R^T)) => x.
  rewrite /fcdiag_new_cov_bias -(fcdiag_renumbered _ hL hR) -!map_comp; congr fcdiag_new_cov.
  by apply: eq_map => e /=; rewrite -(ext_rotated true).
- by move=> us; apply: (@history_linear F _ _ _ _ _ _ nz (sides Q R^T)) => x; apply: (convdiag_renumbered _ hQ hR).
- move=> us; apply: (@history_linear F _ _ _ _ _ _ nz (sides (with_constant true Q) R^T)) => x.
  rewrite /convdiag_new_cov_bias -(convdiag_renumbered _ hL hR) -!map_comp; congr convdiag_new_cov.
  apply: eq_map => ex /=; rewrite -!map_comp; apply: eq_map => e /=; by rewrite -(ext_rotated true).
split.
- move=> us; rewrite -[covariance_after _ _ _ _ _ us *m R^T]mul1mx mulmxA.
  by apply: (@history_linear F _ _ _ _ _ _ nz (sides 1%:M R^T)) => x; apply: (diagkron_renumbered _ hR).
- move=> b us; rewrite -[covariance_after _ _ _ _ _ us *m R^T]mul1mx mulmxA.
  apply: (@history_linear F _ _ _ _ _ _ nz (sides 1%:M R^T) (fun g => naivediag_new_cov g b)
    (fun g => naivediag_new_cov g b) (fun g => g *m R^T)) => x.
  by have := naivediag_renumbered x^T b hR; rewrite trmx_mul !trmxK.
Qed.
Print Assumptions C121_diagonal_covariances.

(** The damping is split between the factors as before, with and without the adjustment. *)
Theorem C121_damping_split :
  forall (F : rcfType) (pow : F -> F -> F) (pi : pi_type) (power : F) (m n : nat)
         (Q : 'M[F]_m) (R : 'M[F]_n) (A A' : linop F m) (G G' : linop F n) (damping : F)
         (replications : option F),
    orthogonal Q -> orthogonal R ->
    lo_dense A' = Q *m lo_dense A *m Q^T -> lo_dense G' = R *m lo_dense G *m R^T ->
    setup_damping pow pi power A' G' damping replications = setup_damping pow pi power A G damping replications.
Proof. by move=> *; apply: setup_rotated; eassumption. Qed.
Print Assumptions C121_damping_split.

(** Kronecker-factored blocks: whatever power is applied (the block, its inverse, or another
    registered one), the result is that of the other coordinates. *)
Theorem C121_kronecker_block :
  forall (F : rcfType) (eigh : forall n, 'M[F]_n -> 'rV[F]_n * 'M[F]_n) (pow : F -> F -> F)
         (threshold : nat) (clip : F) (meth : posdef_inv_method) (m n : nat) (has_bias : bool)
         (Q : 'M[F]_m) (R : 'M[F]_n) (pi : pi_type)
         (regsA regsG : seq (registration F)) (dampA dampG dampA' dampG' : nat -> F)
         (power damping : F) (replications : option F)
         (A : 'M[F]_(rows m has_bias)) (G : 'M[F]_n)
         (inputs inputs' : dense F (rows m has_bias)) (outputs outputs' : dense F n)
         (ia ig : nat) (renorm e : F) (v : params F m n has_bias),
    let L := with_constant has_bias Q in
    let A' := L *m A *m L^T in
    let G' := R *m G *m R^T in
    eigh_contract eigh -> power_laws pow -> clip <= 0 -> orthogonal Q -> orthogonal R ->
    psd A -> psd G -> 0 < normalised pow power damping replications -> 0 < renorm ->
    setup_damping pow pi power (FullMatrix A) (FullMatrix G) damping replications
      = Ok (dampA ia, dampG ig) ->
    setup_damping pow pi power (FullMatrix A') (FullMatrix G') damping replications
      = Ok (dampA' ia, dampG' ig) ->
    up_to_date eigh pow threshold clip meth regsA dampA A inputs ->
    up_to_date eigh pow threshold clip meth regsG dampG G outputs ->
    up_to_date eigh pow threshold clip meth regsA dampA' A' inputs' ->
    up_to_date eigh pow threshold clip meth regsG dampG' G' outputs' ->
    e = 1 \/ List.In (RegMatpower e ia) regsA /\ List.In (RegMatpower e ig) regsG ->
    exists w,
      kron_multiply_matpower pow (fun e => get_matpower inputs dampA e ia)
        (fun e => get_matpower outputs dampG e ig) renorm v e = Ok w /\
      kron_multiply_matpower pow (fun e => get_matpower inputs' dampA' e ia)
        (fun e => get_matpower outputs' dampG' e ig) renorm (rotated Q R v) e = Ok (rotated Q R w).
Proof.
move=> F eigh pow th clip meth m n b Q R pi rA rG dA dG dA' dG' power d r A G sA sA' sG sG' ia ig rn e v /=
  he hp hc hQ hR hA hG d0 r0 e1 e2 uA uG uA' uG' hpow.
move: (e2); rewrite (setup_rotated (A := FullMatrix A) (G := FullMatrix G)
  (A' := FullMatrix (with_constant b Q *m A *m (with_constant b Q)^T)) (G' := FullMatrix (R *m G *m R^T))
  pow pi power d r (orth_constant b hQ) hR erefl erefl) e1 => -[eA eG].
have [a [g [e4 [a0 g0 _]]]] := damping_split (A := FullMatrix A) (G := FullMatrix G) pi hA hG d0.
move: e4; rewrite e1 => -[ea eg]; rewrite -ea in a0; rewrite -eg in g0.
exact: (kron_rotated he hp hc hQ hR v uA uG uA' uG' hA hG a0 g0 r0 (esym eA) (esym eG) hpow).
Qed.
Print Assumptions C121_kronecker_block.

(** Full blocks (and naive full ones, which use the same code). *)
Theorem C121_full_block :
  forall (F : rcfType) (eigh : forall n, 'M[F]_n -> 'rV[F]_n * 'M[F]_n) (pow : F -> F -> F)
         (threshold : nat) (clip : F) (meth : posdef_inv_method) (m n : nat) (has_bias : bool)
         (Q : 'M[F]_m) (R : 'M[F]_n) T
         (regs : seq (registration F)) (damp : nat -> F) (C : 'M[F]_(rows m has_bias * n))
         (factor factor' : dense F (rows m has_bias * n)) (id : nat) (e : F) (v : params F m n has_bias),
    eigh_contract eigh -> power_laws pow -> clip <= 0 -> orthogonal Q -> orthogonal R ->
    is_kron (with_constant has_bias Q) R T ->
    up_to_date eigh pow threshold clip meth regs damp C factor ->
    up_to_date eigh pow threshold clip meth regs damp (T *m C *m T^T) factor' ->
    psd C -> 0 < damp id -> e = 1 \/ List.In (RegMatpower e id) regs ->
    exists w, full_multiply (get_matpower factor damp e id) v false = Ok w /\
              full_multiply (get_matpower factor' damp e id) (rotated Q R v) false = Ok (rotated Q R w).
Proof.
move=> F eigh pow th clip meth m n b Q R T regs d C s s' id e v he hp hc hQ hR /is_kron_unique -> u1 u2 hC d0 hpow.
exact: (full_rotated he hp hc hQ hR v u1 u2 hC d0 erefl hpow).
Qed.
Print Assumptions C121_full_block.

(** Diagonal blocks, when the units are only renumbered. *)
Theorem C121_diagonal_block :
  forall (F : rcfType) (pow : F -> F -> F) (m n : nat) (has_bias : bool) (Q : 'M[F]_m) (R : 'M[F]_n)
         (cov : 'M[F]_(rows m has_bias, n)) (e damping : F) (t : bool) (v : params F m n has_bias),
    renumbering Q -> renumbering R ->
    diagonal_multiply (diag_get_matpower pow (matrix_diagonal (with_constant has_bias Q *m cov *m R^T)) e damping)
      (rotated Q R v) t =
    rotated Q R (diagonal_multiply (diag_get_matpower pow (matrix_diagonal cov) e damping) v t).
Proof. by move=> *; apply: diagonal_renumbered. Qed.
Print Assumptions C121_diagonal_block.

(** Rotations do change what diagonal blocks do: two inputs, one output, one example, and a
    rotation with the numbers 3/5 and 4/5. *)
Definition rotation_345 (F : rcfType) : 'M[F]_2 :=
  5%:R^-1 *: (\matrix_(i, j) if i == j then 3%:R else if i == 0 then - 4%:R else 4%:R).
Lemma rotation_345_orthogonal (F : rcfType) : orthogonal (rotation_345 F).
Proof.
have n5 : 5%:R != 0 :> F by rewrite pnatr_eq0.
pose M : 'M[F]_2 := \matrix_(i, j) if i == j then 3%:R else if i == 0 then - 4%:R else 4%:R.
suff h : M *m M^T = 25%:R%:M.
  rewrite /orthogonal /rotation_345 -/M [(_ *: M)^T]linearZ /= -scalemxAl -scalemxAr h scalerA.
  by rewrite -scalemx1 scalerA -[25%N]/(5 * 5)%N natrM mulrA mulfVK // mulVf // scale1r.
apply/matrixP => i j; rewrite !mxE !big_ord_recl big_ord0 !mxE addr0.
case: i => [[|[|i]] hi] //; case: j => [[|[|j]] hj] //=; rewrite ?mulrNN ?mulrN ?mulNr -?natrM -?natrD //.
all: by rewrite subrr.
Qed.

Theorem C121_diagonal_blocks_can_tell :
  forall (F : rcfType) (pow : F -> F -> F), power_laws pow ->
  exists (Q : 'M[F]_2) (x : 'rV[F]_2) (g : 'rV[F]_1) (v : params F 2 1 false),
    orthogonal Q /\
    diagonal_multiply (m := 2) (n := 1) (has_bias := false)
      (diag_get_matpower pow (matrix_diagonal (fcdiag_new_cov [:: (x *m Q^T, g)])) (-1) 1)
      (rotated Q 1%:M v) false
    <> rotated Q 1%:M (diagonal_multiply (m := 2) (n := 1) (has_bias := false)
        (diag_get_matpower pow (matrix_diagonal (fcdiag_new_cov [:: (x, g)])) (-1) 1) v false).
Proof.
move=> F pow hp; exists (rotation_345 F), (delta_mx 0 0), 1%:M, (delta_mx 0 0 : 'M[F]_(2, 1)).
split; first exact: rotation_345_orthogonal.
set Q := rotation_345 F.
have cov x : fcdiag_new_cov [:: (x, 1%:M : 'rV[F]_1)] = (square_row x)^T.
  rewrite /fcdiag_new_cov /= invr1 scale1r big_seq1 /=; apply/matrixP => i j.
  by rewrite !mxE big_ord_recl big_ord0 addr0 !mxE ord1 eqxx expr1n mulr1.
rewrite !cov => /(congr1 (fun w : params F 2 1 false => layer_params_to_mat2d w 0 0)).
rewrite rotated_mat2d !(@diagonal_entries F pow 2 1 false) rotated_mat2d /= trmx1 !mulmx1.
have q0 : Q 0 0 = 5%:R^-1 * 3%:R by rewrite !mxE.
rewrite !mxE !big_ord_recl !big_ord0 !mxE /= !addr0 !mul0r !mulr0 !addr0 mulr1 mul1r -/Q.
set a : F := _ * 3%:R; have a0 : 0 < a by rewrite /a mulr_gt0 ?invr_gt0 ?ltr0n.
have a1 : a < 1 by rewrite /a mulrC ltr_pdivr_mulr ?ltr0n // mul1r ltr_nat.
rewrite expr1n mulr1 !(pow_minus_one hp) ?addr_gt0 ?exprn_gt0 ?ltr01 // mulrC.
move/(mulfI (lt0r_neq0 a0))/invr_inj/addIr => h.
by have := expr_lt1 (isT : (0 < 2)%N) (ltW a0); rewrite h ltxx a1.
Qed.
Print Assumptions C121_diagonal_blocks_can_tell.

(** Factors meeting the hypotheses exist in both coordinates: two inputs with a bias, rotated,
    and two outputs, exchanged. *)
Example C121_blocks_met : forall F : rcfType,
  exists (Q R : 'M[F]_2) (A : 'M[F]_(rows 2 true)) (G : 'M[F]_2) dA dG inputs inputs' outputs outputs',
    let L := with_constant true Q in
    let A' := L *m A *m L^T in
    let G' := R *m G *m R^T in
    [/\ orthogonal Q, renumbering R, orthogonal R & R <> 1%:M] /\ psd A /\ psd G /\
    [/\ setup_damping (@a_pow F) PiTracenorm 0 (FullMatrix A) (FullMatrix G) 2^-1 None = Ok (dA, dG)
      & setup_damping (@a_pow F) PiTracenorm 0 (FullMatrix A') (FullMatrix G') 2^-1 None = Ok (dA, dG)] /\
    [/\ up_to_date (@an_eigh F) (@a_pow F) 4 0 CholeskyMethod [:: RegMatpower (-1) 0] (fun=> dA) A inputs,
        up_to_date (@an_eigh F) (@a_pow F) 4 0 CholeskyMethod [:: RegMatpower (-1) 0] (fun=> dG) G outputs,
        up_to_date (@an_eigh F) (@a_pow F) 4 0 CholeskyMethod [:: RegMatpower (-1) 0] (fun=> dA) A' inputs'
      & up_to_date (@an_eigh F) (@a_pow F) 4 0 CholeskyMethod [:: RegMatpower (-1) 0] (fun=> dG) G' outputs'].
Proof.
move=> F; set A := (const_mx 1 : 'M[F]_(rows 2 true)); set G := (const_mx 1 : 'M[F]_2).
set Q := rotation_345 F; set R : 'M[F]_2 := perm_mx (tperm 0 1); set L := with_constant true Q.
have hQ : orthogonal Q by exact: rotation_345_orthogonal.
have sR : renumbering R by exists (tperm 0 1).
have hR : orthogonal R by exact: renumbering_orth.
have hA : psd A by exact: psd_const.
have hG : psd G by exact: psd_const.
have d0 : 0 < normalised (@a_pow F) 0 2^-1 None by rewrite /= invr_gt0 ltr0n.
have [a [g [e1 _]]] := damping_split (A := FullMatrix A) (G := FullMatrix G) PiTracenorm hA hG d0.
have [s1 u1] := up_to_date_exists (@an_eigh F) (@a_pow F) 4 0 CholeskyMethod [:: RegMatpower (-1) 0] (fun=> a) A.
have [s2 u2] := up_to_date_exists (@an_eigh F) (@a_pow F) 4 0 CholeskyMethod [:: RegMatpower (-1) 0] (fun=> g) G.
have [s3 u3] := up_to_date_exists (@an_eigh F) (@a_pow F) 4 0 CholeskyMethod [:: RegMatpower (-1) 0] (fun=> a)
  (L *m A *m L^T).
have [s4 u4] := up_to_date_exists (@an_eigh F) (@a_pow F) 4 0 CholeskyMethod [:: RegMatpower (-1) 0] (fun=> g)
  (R *m G *m R^T).
exists Q, R, A, G, a, g, s1, s3, s2, s4; split; first split=> //.
  move/matrixP/(_ 0 0); rewrite !mxE tpermL /= => /esym/eqP; by rewrite oner_eq0.
split=> //; split=> //; split; split=> //.
rewrite -e1; apply: (setup_rotated _ _ _ _ _ (orth_constant true hQ) hR) => //.
Qed.
