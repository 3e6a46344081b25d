(** Property theorems C120 (the part about blocks and factors): the unit in which the loss is
    measured does not matter. *)
From mathcomp Require Import all_ssreflect all_algebra.
From Verif.Base Require Import Py.
From Verif.Blocks Require Import Model Spec MatProofs PsdProofs EigProofs FactorProofs ServeProofs BlockProofs
  StatProofs SuaProofs EndProofs UnitsProofs.
Set Implicit Arguments.
Unset Strict Implicit.
Unset Printing Implicit Defensive.
Import GRing.Theory Num.Theory Order.TTheory.
Local Open Scope ring_scope.

(** If every output gradient (for the naive factors, every parameter gradient) is [q] times as
    large, then after any history of updates the covariances of output gradients, of diagonal
    factors and of naive factors are q^2 times as large. *)
Theorem C120_covariances :
  forall (F : rcfType) (q : F) (normalize : bool) (R S T m n : nat),
    let scaled X (f : X -> X) (updates : seq ((nat -> nat -> nat -> X) * (F * F))) :=
      [seq (fun r s t => f (u.1 r s t), u.2) | u <- updates] in
    let after X k l (stat : X -> 'M[F]_(k, l)) := covariance_after normalize stat R S T in
    let grads := map (fun x : 'rV[F]_n => q *: x) in
    let examples := map (fun e : 'rV[F]_m * 'rV[F]_n => (e.1, q *: e.2)) in
    [/\ forall us, after _ _ _ (@fc_new_cov F n) (scaled _ grads us) = q ^+ 2 *: after _ _ _ (@fc_new_cov F n) us,
        forall us, after _ _ _ (@convin_new_cov F n) (scaled _ (map grads) us)
          = q ^+ 2 *: after _ _ _ (@convin_new_cov F n) us,
        forall us, after _ _ _ (@fcdiag_new_cov F m n) (scaled _ examples us)
          = q ^+ 2 *: after _ _ _ (@fcdiag_new_cov F m n) us
      & forall us, after _ _ _ (@fcdiag_new_cov_bias F m n) (scaled _ examples us)
          = q ^+ 2 *: after _ _ _ (@fcdiag_new_cov_bias F m n) us] /\
    [/\ forall us, after _ _ _ (@convdiag_new_cov F m n) (scaled _ (map examples) us)
          = q ^+ 2 *: after _ _ _ (@convdiag_new_cov F m n) us,
        forall us, after _ _ _ (@convdiag_new_cov_bias F m n) (scaled _ (map examples) us)
          = q ^+ 2 *: after _ _ _ (@convdiag_new_cov_bias F m n) us,
        forall b us, after _ _ _ (fun g : 'rV[F]_n => naivefull_new_cov g b) (scaled _ (fun g => q *: g) us)
          = q ^+ 2 *: after _ _ _ (fun g : 'rV[F]_n => naivefull_new_cov g b) us
      & forall b us, after _ _ _ (fun g : 'rV[F]_n => naivediag_new_cov g b) (scaled _ (fun g => q *: g) us)
          = q ^+ 2 *: after _ _ _ (fun g : 'rV[F]_n => naivediag_new_cov g b) us].
Proof.
move=> F q nz R S T m n /=; split; split.
- by move=> us; apply: history_scale => x; apply: cov_scale.
- by move=> us; apply: history_scale => x; apply: convin_scale.
- by move=> us; apply: history_scale => x; apply: fcdiag_scale.
- by move=> us; apply: history_scale => x; apply: fcdiagb_scale.
- by move=> us; apply: history_scale => x; apply: convdiag_scale.
- by move=> us; apply: history_scale => x; apply: convdiagb_scale.
- by move=> b us; apply: history_scale => x; apply: naivefull_scale.
- by move=> b us; apply: history_scale => x; apply: naivediag_scale.
Qed.
Print Assumptions C120_covariances.

(** With the trace-norm adjustment and both traces positive, all of the factor [k] in the
    damping goes to the output factor, whose covariance is [k] times as large. *)
Theorem C120_damping_split_partial :
  forall (F : rcfType) (pow : F -> F -> F) (k power : F) (m n : nat) (A : linop F m) (G G' : linop F n)
         (damping : F) (replications : option F) a g,
    0 < k -> lo_dense G' = k *: lo_dense G ->
    psd (lo_dense A) -> psd (lo_dense G) -> 0 < normalised pow power damping replications ->
    \tr (lo_dense A) <> 0 -> \tr (lo_dense G) <> 0 ->
    setup_damping pow PiTracenorm power A G damping replications = Ok (a, g) ->
    setup_damping pow PiTracenorm power A G' (k * damping) replications = Ok (a, k * g).
Proof. by move=> F pow k power m n A G G' d r a g k0; apply: setup_scale. Qed.
Print Assumptions C120_damping_split_partial.

(** Kronecker-factored blocks with the trace-norm adjustment: from [k] times the gradient, the
    output covariance [k] times as large and [k] times the damping, the inverse makes the same
    direction; and products with the block itself are [k] times as large. *)
Theorem C120_kronecker_block_partial :
  forall (F : rcfType) (eigh : forall n, 'M[F]_n -> 'rV[F]_n * 'M[F]_n) (pow : F -> F -> F)
         (threshold : nat) (clip : F) (meth : posdef_inv_method) (m n : nat) (has_bias : bool)
         (regsA regsG : seq (registration F)) (dampA dampG dampA' dampG' : nat -> F)
         (k power damping : F) (replications : option F)
         (A : 'M[F]_(rows m has_bias)) (G : 'M[F]_n)
         (inputs inputs' : dense F (rows m has_bias)) (outputs outputs' : dense F n)
         (ia ig : nat) (renorm : F) (v u : params F m n has_bias) cv,
    eigh_contract eigh -> power_laws pow -> clip <= 0 -> 0 < k ->
    psd A -> psd G -> 0 < normalised pow power damping replications -> 0 < renorm ->
    \tr A <> 0 -> \tr G <> 0 ->
    setup_damping pow PiTracenorm power (FullMatrix A) (FullMatrix G) damping replications
      = Ok (dampA ia, dampG ig) ->
    setup_damping pow PiTracenorm power (FullMatrix A) (FullMatrix (k *: G)) (k * damping) replications
      = Ok (dampA' ia, dampG' ig) ->
    up_to_date eigh pow threshold clip meth regsA dampA A inputs ->
    up_to_date eigh pow threshold clip meth regsG dampG G outputs ->
    up_to_date eigh pow threshold clip meth regsA dampA' A inputs' ->
    up_to_date eigh pow threshold clip meth regsG dampG' (k *: G) outputs' ->
    let multiply := kron_multiply_matpower pow (fun e => get_matpower inputs dampA e ia)
                      (fun e => get_matpower outputs dampG e ig) renorm in
    let multiply' := kron_multiply_matpower pow (fun e => get_matpower inputs' dampA' e ia)
                       (fun e => get_matpower outputs' dampG' e ig) renorm in
    (List.In (RegMatpower (-1) ia) regsA -> List.In (RegMatpower (-1) ig) regsG ->
     is_column v cv -> is_column u (k *: cv) ->
     exists w, multiply v (-1) = Ok w /\ multiply' u (-1) = Ok w) /\
    (exists w w', [/\ multiply v 1 = Ok w, multiply' v 1 = Ok w'
      & forall cw, is_column w cw -> is_column w' (k *: cw)]).
Proof.
move=> F eigh pow th clip meth m n b rA rG dA dG dA' dG' k power d r A G sA sA' sG sG' ia ig rn v u cv
  he hp hc k0 hA hG d0 r0 tA tG e1 e2 uA uG uA' uG'.
have e3 := setup_scale (A := FullMatrix A) (G := FullMatrix G) (G' := FullMatrix (k *: G)) k0 erefl hA hG d0 tA tG e1.
move: e2; rewrite e3 => -[eA eG].
have [a [g [e4 [a0 g0 _]]]] := damping_split (A := FullMatrix A) (G := FullMatrix G) PiTracenorm hA hG d0.
move: e4; rewrite e1 => -[ea eg]; rewrite -ea in a0; rewrite -eg in g0.
split.
- move=> r1 r2 /is_column_unique -> /is_column_unique hu.
  by apply: (kron_units_inverse he hp hc k0 uA uG uA' uG' hA hG a0 g0 r0 (esym eA) (esym eG) r1 r2 (esym hu)).
- have [w [w' [f1 f2 f3]]] := kron_units_forward he hp hc k0 uA uG uA' uG' hA hG a0 g0 r0 (esym eA) (esym eG) v.
  exists w, w'; split => // cw /is_column_unique ->; rewrite -f3; exact: column_is_column.
Qed.
Print Assumptions C120_kronecker_block_partial.

(** With the adjustment off, or with a vanishing covariance, the direction does depend on the
    unit: a layer with one input and one output, loss multiplied by 4. *)
Theorem C120_pi_off_refuted :
  forall (F : rcfType) (eigh : forall n, 'M[F]_n -> 'rV[F]_n * 'M[F]_n) (pow : F -> F -> F)
         (threshold : nat) (clip power : F) (meth : posdef_inv_method),
    eigh_contract eigh -> power_laws pow -> clip <= 0 ->
    exists (A G : 'M[F]_1) (a g a' g' : F) (v : params F 1 1 false),
      [/\ psd A, psd G, \tr A <> 0 & \tr G <> 0] /\
      setup_damping pow PiOff power (FullMatrix A) (FullMatrix G) 1 None = Ok (a, g) /\
      setup_damping pow PiOff power (FullMatrix A) (FullMatrix (4%:R *: G)) 4%:R None = Ok (a', g') /\
      forall inputs outputs inputs' outputs' : dense F 1,
        up_to_date eigh pow threshold clip meth [:: RegMatpower (-1) 0] (fun=> a) A inputs ->
        up_to_date eigh pow threshold clip meth [:: RegMatpower (-1) 0] (fun=> g) G outputs ->
        up_to_date eigh pow threshold clip meth [:: RegMatpower (-1) 0] (fun=> a') A inputs' ->
        up_to_date eigh pow threshold clip meth [:: RegMatpower (-1) 0] (fun=> g') (4%:R *: G) outputs' ->
        exists w w' : params F 1 1 false,
          [/\ kron_multiply_matpower pow (m := 1) (has_bias := false) (fun e => get_matpower inputs (fun=> a) e 0)
                (fun e => get_matpower outputs (fun=> g) e 0) 1 v (-1) = Ok w,
              kron_multiply_matpower pow (m := 1) (has_bias := false) (fun e => get_matpower inputs' (fun=> a') e 0)
                (fun e => get_matpower outputs' (fun=> g') e 0) 1 (4%:R *: (v : 'M[F]_1) : params F 1 1 false) (-1)
              = Ok w'
            & w <> w'].
Proof.
move=> F eigh pow th clip power meth he hp hc.
exists (1 *: 1%:M), (1 *: 1%:M), 1, 1, 2%:R, 2%:R, (1%:M : 'M[F]_1).
split; first by split; rewrite ?scale1r ?mxtrace1; try exact: psd1; apply/eqP; exact: oner_neq0.
split; first by rewrite /setup_damping /= sqrtr1.
split; first by rewrite /setup_damping /= sqrt4.
move=> s1 s2 s3 s4 u1 u2 u3; rewrite scalerA mulr1 => u4.
have [w [e1 h1]] := scalar_block he hp hc (1%:M : 'M[F]_1) ler01 ler01 ltr01 ltr01 u1 u2.
have [w' [e2 h2]] := scalar_block he hp hc (4%:R *: 1%:M : 'M[F]_1) ler01 (ler0n _ 4) (ltr0Sn _ 1) (ltr0Sn _ 1) u3 u4.
exists w, w'; split => //; apply: (no_common _ _ h1 h2).
- by move/(congr1 (fun M : 'M[F]_1 => M 0 0)); rewrite !mxE; apply/eqP; exact: oner_neq0.
- by apply/eqP; rewrite -[1]/(1%:R) -!natrD -!natrM eqr_nat.
Qed.
Print Assumptions C120_pi_off_refuted.

Theorem C120_vanishing_covariance_refuted :
  forall (F : rcfType) (eigh : forall n, 'M[F]_n -> 'rV[F]_n * 'M[F]_n) (pow : F -> F -> F)
         (threshold : nat) (clip power : F) (meth : posdef_inv_method),
    eigh_contract eigh -> power_laws pow -> clip <= 0 ->
    exists (A G : 'M[F]_1) (a g a' g' : F) (v : params F 1 1 false),
      [/\ psd A, psd G, \tr A <> 0 & G = 0] /\
      setup_damping pow PiTracenorm power (FullMatrix A) (FullMatrix G) 1 None = Ok (a, g) /\
      setup_damping pow PiTracenorm power (FullMatrix A) (FullMatrix (4%:R *: G)) 4%:R None = Ok (a', g') /\
      forall inputs outputs inputs' outputs' : dense F 1,
        up_to_date eigh pow threshold clip meth [:: RegMatpower (-1) 0] (fun=> a) A inputs ->
        up_to_date eigh pow threshold clip meth [:: RegMatpower (-1) 0] (fun=> g) G outputs ->
        up_to_date eigh pow threshold clip meth [:: RegMatpower (-1) 0] (fun=> a') A inputs' ->
        up_to_date eigh pow threshold clip meth [:: RegMatpower (-1) 0] (fun=> g') (4%:R *: G) outputs' ->
        exists w w' : params F 1 1 false,
          [/\ kron_multiply_matpower pow (m := 1) (has_bias := false) (fun e => get_matpower inputs (fun=> a) e 0)
                (fun e => get_matpower outputs (fun=> g) e 0) 1 v (-1) = Ok w,
              kron_multiply_matpower pow (m := 1) (has_bias := false) (fun e => get_matpower inputs' (fun=> a') e 0)
                (fun e => get_matpower outputs' (fun=> g') e 0) 1 (4%:R *: (v : 'M[F]_1) : params F 1 1 false) (-1)
              = Ok w'
            & w <> w'].
Proof.
move=> F eigh pow th clip power meth he hp hc.
exists (1 *: 1%:M), (0 *: 1%:M), 1, 1, 2%:R, 2%:R, (1%:M : 'M[F]_1).
split.
  split; rewrite ?scale0r //; [| exact: psd0 |].
  - by rewrite scale1r; exact: psd1.
  - by rewrite scale1r mxtrace1; apply/eqP; exact: oner_neq0.
have tr0 (c : F) : lo_trace (FullMatrix (c *: (0 *: 1%:M) : 'M[F]_1)) = 0.
  by rewrite /= scale0r scaler0 mxtrace0.
have tr0' : lo_trace (FullMatrix ((0 : F) *: 1%:M : 'M[F]_1)) = 0 by rewrite /= scale0r mxtrace0.
split; first by rewrite /setup_damping /compute_pi_adjusted_damping /compute_pi_tracenorm tr0' mul0r mulr0 eqxx
  sqrtr1 mulr1 divr1.
split; first by rewrite /setup_damping /compute_pi_adjusted_damping /compute_pi_tracenorm tr0 mul0r mulr0 eqxx
  sqrt4 mulr1 divr1.
move=> s1 s2 s3 s4 u1 u2 u3; rewrite scalerA mulr0 => u4.
have [w [e1 h1]] := scalar_block he hp hc (1%:M : 'M[F]_1) ler01 (lexx 0) ltr01 ltr01 u1 u2.
have [w' [e2 h2]] := scalar_block he hp hc (4%:R *: 1%:M : 'M[F]_1) ler01 (lexx 0) (ltr0Sn _ 1) (ltr0Sn _ 1) u3 u4.
exists w, w'; split => //; apply: (no_common _ _ h1 h2).
- by move/(congr1 (fun M : 'M[F]_1 => M 0 0)); rewrite !mxE; apply/eqP; exact: oner_neq0.
- by apply/eqP; rewrite !add0r -[1]/(1%:R) -!natrD -!natrM eqr_nat.
Qed.
Print Assumptions C120_vanishing_covariance_refuted.

(** Full and diagonal blocks (and the naive ones, which use the same code). *)
Theorem C120_full_block :
  forall (F : rcfType) (eigh : forall n, 'M[F]_n -> 'rV[F]_n * 'M[F]_n) (pow : F -> F -> F)
         (threshold : nat) (clip : F) (meth : posdef_inv_method) (m n : nat) (has_bias : bool)
         (regs : seq (registration F)) (damp damp' : nat -> F) (k : F) (C : 'M[F]_(rows m has_bias * n))
         (factor factor' : dense F (rows m has_bias * n)) (id : nat) (v u : params F m n has_bias) cv,
    eigh_contract eigh -> power_laws pow -> clip <= 0 -> 0 < k ->
    up_to_date eigh pow threshold clip meth regs damp C factor ->
    up_to_date eigh pow threshold clip meth regs damp' (k *: C) factor' ->
    psd C -> 0 < damp id -> damp' id = k * damp id -> List.In (RegMatpower (-1) id) regs ->
    is_column v cv -> is_column u (k *: cv) ->
    exists w, full_multiply (get_matpower factor damp (-1) id) v false = Ok w /\
              full_multiply (get_matpower factor' damp' (-1) id) u false = Ok w.
Proof.
move=> F eigh pow th clip meth m n b regs d d' k C s s' id v u cv he hp hc k0 u1 u2 hC d0 ed r
  /is_column_unique -> /is_column_unique hu.
exact: (full_units_inverse he hp hc k0 u1 u2 hC d0 ed r (esym hu)).
Qed.
Print Assumptions C120_full_block.

Theorem C120_diagonal_block :
  forall (F : rcfType) (pow : F -> F -> F) (k : F) (m n : nat) (has_bias : bool)
         (d : 'rV[F]_(rows m has_bias * n)) (damping : F) (v u : params F m n has_bias) (t : bool) cv,
    power_laws pow -> 0 < k -> (forall i, 0 < d 0 i + damping) ->
    is_column v cv -> is_column u (k *: cv) ->
    diagonal_multiply (diag_get_matpower pow (k *: d) (-1) (k * damping)) u t =
    diagonal_multiply (diag_get_matpower pow d (-1) damping) v t.
Proof.
move=> F pow k m n b d damping v u t cv hp k0 h /is_column_unique -> /is_column_unique hu.
exact: (diag_units_inverse hp k0 t h (esym hu)).
Qed.
Print Assumptions C120_diagonal_block.

(** Factors meeting the hypotheses exist in both units: two inputs with a bias, two outputs. *)
Example C120_blocks_met : forall F : rcfType,
  exists (A : 'M[F]_(rows 2 true)) (G : 'M[F]_2) dA dG dA' dG' inputs inputs' outputs outputs',
    [/\ psd A, psd G, \tr A <> 0 & \tr G <> 0] /\
    [/\ setup_damping (@a_pow F) PiTracenorm 0 (FullMatrix A) (FullMatrix G) 2^-1 None = Ok (dA, dG),
        setup_damping (@a_pow F) PiTracenorm 0 (FullMatrix A) (FullMatrix (3%:R *: G)) (3%:R * 2^-1) None
          = Ok (dA', dG') & dG' = 3%:R * dG] /\
    [/\ up_to_date (@an_eigh F) (@a_pow F) 4 0 CholeskyMethod [:: RegMatpower (-1) 0] (fun=> dA) A inputs,
        up_to_date (@an_eigh F) (@a_pow F) 4 0 CholeskyMethod [:: RegMatpower (-1) 0] (fun=> dG) G outputs,
        up_to_date (@an_eigh F) (@a_pow F) 4 0 CholeskyMethod [:: RegMatpower (-1) 0] (fun=> dA') A inputs'
      & up_to_date (@an_eigh F) (@a_pow F) 4 0 CholeskyMethod [:: RegMatpower (-1) 0] (fun=> dG') (3%:R *: G) outputs'].
Proof.
move=> F; set A := (const_mx 1 : 'M[F]_(rows 2 true)); set G := (const_mx 1 : 'M[F]_2).
have tA : \tr A <> 0.
  rewrite /A /mxtrace (eq_bigr (fun=> 1)) => [|i _]; last by rewrite mxE.
  by rewrite sumr_const card_ord; apply/eqP; rewrite pnatr_eq0.
have tG : \tr G <> 0.
  rewrite /G /mxtrace (eq_bigr (fun=> 1)) => [|i _]; last by rewrite mxE.
  by rewrite sumr_const card_ord; apply/eqP; rewrite pnatr_eq0.
have hA : psd A by exact: psd_const.
have hG : psd G by exact: psd_const.
have d0 : 0 < normalised (@a_pow F) 0 2^-1 None by rewrite /= invr_gt0 ltr0n.
have [a [g [e1 _]]] := damping_split (A := FullMatrix A) (G := FullMatrix G) PiTracenorm hA hG d0.
have e2 := setup_scale (A := FullMatrix A) (G := FullMatrix G) (G' := FullMatrix (3%:R *: G)) (ltr0Sn F 2)
  erefl hA hG d0 tA tG e1.
have [s1 u1] := up_to_date_exists (@an_eigh F) (@a_pow F) 4 0 CholeskyMethod [:: RegMatpower (-1) 0] (fun=> a) A.
have [s2 u2] := up_to_date_exists (@an_eigh F) (@a_pow F) 4 0 CholeskyMethod [:: RegMatpower (-1) 0] (fun=> g) G.
have [s4 u4] := up_to_date_exists (@an_eigh F) (@a_pow F) 4 0 CholeskyMethod [:: RegMatpower (-1) 0]
  (fun=> 3%:R * g) (3%:R *: G).
by exists A, G, a, g, a, (3%:R * g), s1, s1, s2, s4.
Qed.
