(** Property theorems C41 - C47 and C58 - C61.  [F] is any real closed field (for example
    the real algebraic numbers); [eigh] and [pow] stand for tf.self_adjoint_eig and tf.pow and
    are only assumed to do what those promise (Spec). *)
From mathcomp Require Import all_ssreflect all_algebra.
From Verif.Base Require Import Py.
From Verif.Blocks Require Import Model Spec MatProofs PsdProofs EigProofs FactorProofs ServeProofs BlockProofs
  StatProofs SuaProofs EndProofs.
Set Implicit Arguments.
Unset Strict Implicit.
Unset Printing Implicit Defensive.
Import GRing.Theory Num.Theory Order.TTheory.
Local Open Scope ring_scope.

(* ======================================================================= *)
(** ** C41 *)

(** With factors whose inverses are up to date, multiplying [v] by the block raised to [e]
    multiplies the column of [v]'s coordinates by the [e]-th power of the renormalised
    Kronecker product of the damped factors. *)
Theorem C41_multiply_is_kronecker_power :
  forall (F : rcfType) (eigh : forall n, 'M[F]_n -> 'rV[F]_n * 'M[F]_n) (pow : F -> F -> F)
         (threshold : nat) (clip : F) (meth : posdef_inv_method) (m n : nat) (has_bias : bool)
         (regsA regsG : seq (registration F)) (dampA dampG : nat -> F)
         (A : 'M[F]_(rows m has_bias)) (G : 'M[F]_n)
         (inputs : dense F (rows m has_bias)) (outputs : dense F n) (ia ig : nat) (renorm e : F)
         (v : params F m n has_bias),
    eigh_contract eigh -> power_laws pow -> clip <= 0 ->
    up_to_date eigh pow threshold clip meth regsA dampA A inputs ->
    up_to_date eigh pow threshold clip meth regsG dampG G outputs ->
    psd A -> psd G -> 0 < dampA ia -> 0 < dampG ig -> 0 < renorm ->
    e = 1 \/ (List.In (RegMatpower e ia) regsA /\ List.In (RegMatpower e ig) regsG) ->
    exists w,
      kron_multiply_matpower pow (fun e => get_matpower inputs dampA e ia)
        (fun e => get_matpower outputs dampG e ig) renorm v e = Ok w /\
      forall cv cw K, is_column v cv -> is_column w cw ->
        is_kron (A + dampA ia *: 1%:M) (G + dampG ig *: 1%:M) K ->
        exists M, is_matpower pow (renorm *: K) e M /\ cw = M *m cv.
Proof.
move=> F eigh pow th clip meth m n b rA rG dA dG A G sA sG ia ig r e v he hp hc uA uG pA pG a0 g0 r0.
exact: (kron_power he hp hc uA uG pA pG a0 g0 r0).
Qed.
Print Assumptions C41_multiply_is_kronecker_power.

(** Multiplying by the inverse undoes multiplying, and the other way round. *)
Theorem C41_inverse_undoes_multiply :
  forall (F : rcfType) (eigh : forall n, 'M[F]_n -> 'rV[F]_n * 'M[F]_n) (pow : F -> F -> F)
         (threshold : nat) (clip : F) (meth : posdef_inv_method) (m n : nat) (has_bias : bool)
         (regsA regsG : seq (registration F)) (dampA dampG : nat -> F)
         (A : 'M[F]_(rows m has_bias)) (G : 'M[F]_n)
         (inputs : dense F (rows m has_bias)) (outputs : dense F n) (ia ig : nat) (renorm e e' : F)
         (v : params F m n has_bias),
    eigh_contract eigh -> power_laws pow -> clip <= 0 ->
    up_to_date eigh pow threshold clip meth regsA dampA A inputs ->
    up_to_date eigh pow threshold clip meth regsG dampG G outputs ->
    psd A -> psd G -> 0 < dampA ia -> 0 < dampG ig -> 0 < renorm ->
    List.In (RegMatpower (-1) ia) regsA -> List.In (RegMatpower (-1) ig) regsG ->
    (e = 1 /\ e' = -1) \/ (e = -1 /\ e' = 1) ->
    let multiply := kron_multiply_matpower pow (fun e => get_matpower inputs dampA e ia)
                      (fun e => get_matpower outputs dampG e ig) renorm in
    exists w, multiply v e = Ok w /\ multiply w e' = Ok v.
Proof.
move=> F eigh pow th clip meth m n b rA rG dA dG A G sA sG ia ig r e e' v he hp hc uA uG pA pG a0 g0 r0 h1 h2 h.
have hh : (e = 1 \/ e = -1) /\ (e' = 1 \/ e' = -1) by case: h => -[-> ->]; split; auto.
by apply: (kron_undo he hp hc uA uG pA pG a0 g0 r0 _ _ _ h); case: hh => -[?|?] [?|?]; subst; first [by left | by right].
Qed.
Print Assumptions C41_inverse_undoes_multiply.

(** Multiplication is linear, whatever the two factors serve. *)
Theorem C41_multiply_is_linear :
  forall (F : rcfType) (pow : F -> F -> F) (m n : nat) (has_bias : bool)
         (left : F -> res (linop F (rows m has_bias))) (right : F -> res (linop F n)) (renorm e : F)
         (v w u v' w' : params F m n has_bias) (a : F) cv cw,
    kron_multiply_matpower pow left right renorm v e = Ok v' ->
    kron_multiply_matpower pow left right renorm w e = Ok w' ->
    is_column v cv -> is_column w cw -> is_column u (a *: cv + cw) ->
    exists u', kron_multiply_matpower pow left right renorm u e = Ok u' /\
      forall cv' cw', is_column v' cv' -> is_column w' cw' -> is_column u' (a *: cv' + cw').
Proof. move=> *; apply: kron_linear; eassumption. Qed.
Print Assumptions C41_multiply_is_linear.

(** Factors of any kind (diagonal input factors included): the matrix is the Kronecker product of the
    two served matrices, with the renormalisation raised to the exponent. *)
Theorem C41_any_operators :
  forall (F : rcfType) (pow : F -> F -> F) (m n : nat) (has_bias : bool)
         (left : linop F (rows m has_bias)) (right : linop F n) (renorm e : F)
         (v : params F m n has_bias),
    (lo_dense right)^T = lo_dense right ->
    exists w, kron_multiply_matpower pow (fun=> Ok left) (fun=> Ok right) renorm v e = Ok w /\
      forall cv cw K, is_column v cv -> is_column w cw -> is_kron (lo_dense left) (lo_dense right) K ->
        cw = pow renorm e *: (K *m cv).
Proof. by move=> F pow m n b l r renorm e v; apply: kron_ops. Qed.
Print Assumptions C41_any_operators.

(** full_fisher_block is the undamped matrix of the same block. *)
Theorem C41_full_fisher_block :
  forall (F : rcfType) (m n : nat) (has_bias : bool) (A : 'M[F]_(rows m has_bias)) (G : 'M[F]_n)
         (renorm : F) K,
    is_kron A G K -> kron_full_fisher_block (FullMatrix A) (FullMatrix G) renorm = renorm *: K.
Proof. by move=> F m n b A G r K; apply: kron_block_matrix. Qed.
Print Assumptions C41_full_fisher_block.

(** The column of any parameters exists and is unique. *)
Theorem C41_columns :
  forall (F : rcfType) (m n : nat) (has_bias : bool) (v : params F m n has_bias),
    exists c, is_column v c /\ forall c', is_column v c' -> c' = c.
Proof. move=> F m n b v; eexists; split; [exact: column_is_column|]; exact: is_column_unique. Qed.
Print Assumptions C41_columns.

(** Two factors of a layer with two inputs, a bias and two outputs, registered for inversion and up to
    date. *)
Example C41_hypotheses_met : forall F : rcfType,
  exists (A : 'M[F]_(rows 2 true)) (G : 'M[F]_2) (inputs : dense F (rows 2 true)) (outputs : dense F 2),
    [/\ eigh_contract (@an_eigh F), power_laws (@a_pow F), psd A, psd G
      & A 0 ord_max = 1] /\
    up_to_date (@an_eigh F) (@a_pow F) 4 0 CholeskyMethod [:: RegMatpower (-1) 0] (fun=> 2^-1) A inputs /\
    up_to_date (@an_eigh F) (@a_pow F) 4 0 CholeskyMethod [:: RegMatpower (-1) 0] (fun=> 2^-1) G outputs.
Proof.
move=> F.
have [s h] := up_to_date_exists (@an_eigh F) (@a_pow F) 4 0 CholeskyMethod [:: RegMatpower (-1) 0]
  (fun=> 2^-1) (const_mx 1 : 'M[F]_(rows 2 true)).
have [t k] := up_to_date_exists (@an_eigh F) (@a_pow F) 4 0 CholeskyMethod [:: RegMatpower (-1) 0]
  (fun=> 2^-1) (const_mx 1 : 'M[F]_2).
exists (const_mx 1), (const_mx 1), s, t; split => //; split; rewrite ?mxE //.
- exact: an_eigh_contract.
- exact: a_pow_laws.
- exact: psd_const.
- exact: psd_const.
Qed.

(* ======================================================================= *)
(** ** C42 *)

Theorem C42_dampings_multiply_to_damping :
  forall (F : rcfType) (pow : F -> F -> F) (pt : pi_type) (power : F) (m n : nat)
         (A : linop F m) (G : linop F n) (damping : F) (replications : option F),
    psd (lo_dense A) -> psd (lo_dense G) -> 0 < normalised pow power damping replications ->
    exists a g, setup_damping pow pt power A G damping replications = Ok (a, g) /\
      [/\ 0 < a, 0 < g & a * g = normalised pow power damping replications].
Proof. by move=> *; apply: damping_split. Qed.
Print Assumptions C42_dampings_multiply_to_damping.

(** The two are equal when the adjustment is off, when a trace is zero and when the mean
    diagonal entries agree; otherwise their ratio is that of the mean diagonal entries. *)
Theorem C42_damping_ratio :
  forall (F : rcfType) (pow : F -> F -> F) (pt : pi_type) (power : F) (m n : nat)
         (A : linop F m) (G : linop F n) (damping : F) (replications : option F) a g,
    psd (lo_dense A) -> psd (lo_dense G) -> 0 < normalised pow power damping replications ->
    setup_damping pow pt power A G damping replications = Ok (a, g) ->
    [/\ pt = PiOff -> a = g,
        \tr (lo_dense A) = 0 \/ \tr (lo_dense G) = 0 -> a = g,
        (0 < m)%N -> (0 < n)%N -> \tr (lo_dense A) / m%:R = \tr (lo_dense G) / n%:R -> a = g
      & pt = PiTracenorm -> (0 < m)%N -> (0 < n)%N ->
        \tr (lo_dense A) <> 0 -> \tr (lo_dense G) <> 0 ->
        a / g = (\tr (lo_dense A) / m%:R) / (\tr (lo_dense G) / n%:R)].
Proof. by move=> F pow pt power m n A G d r a g; apply: damping_values. Qed.
Print Assumptions C42_damping_ratio.

(** The damped Kronecker product is at least the product plus the damping times the identity. *)
Theorem C42_damped_block_dominates :
  forall (F : rcfType) (m n : nat) (A : 'M[F]_m) (G : 'M[F]_n) (a g : F) K KD,
    psd A -> psd G -> 0 <= a -> 0 <= g -> is_kron A G K ->
    is_kron (A + a *: 1%:M) (G + g *: 1%:M) KD ->
    psd (KD - (K + (a * g) *: 1%:M)).
Proof. by move=> *; apply: damping_dominates; eassumption. Qed.
Print Assumptions C42_damped_block_dominates.

(** Different traces: a 2 x 2 and a 3 x 3 factor. *)
Example C42_hypotheses_met : forall F : rcfType,
  [/\ psd (lo_dense (FullMatrix (const_mx 1 : 'M[F]_2))),
      psd (lo_dense (FullMatrix (2 *: const_mx 1 : 'M[F]_3))),
      0 < normalised (@a_pow F) 1 2^-1 (Some 3%:R),
      \tr (const_mx 1 : 'M[F]_2) <> 0 & \tr (2 *: const_mx 1 : 'M[F]_3) <> 0].
Proof.
move=> F; split.
- exact: psd_const.
- by apply: psdZ; [exact: ler0n|exact: psd_const].
- by rewrite /normalised oner_eq0 (pow_one (@a_pow_laws F)) ?ltr0n // divr_gt0 ?invr_gt0 ?ltr0n.
- rewrite /mxtrace (eq_bigr (fun=> 1)) => [|i _]; last by rewrite mxE.
  by rewrite sumr_const card_ord; apply/eqP; rewrite pnatr_eq0.
- rewrite /mxtrace (eq_bigr (fun=> 2)) => [|i _]; last by rewrite !mxE mulr1.
  by rewrite sumr_const card_ord -mulrnA; apply/eqP; rewrite pnatr_eq0.
Qed.

(* ======================================================================= *)
(** ** C43 *)

Theorem C43_kronecker_cholesky :
  forall (F : rcfType) (eigh : forall n, 'M[F]_n -> 'rV[F]_n * 'M[F]_n) (pow : F -> F -> F)
         (threshold : nat) (clip : F) (meth : posdef_inv_method) (m n : nat) (has_bias : bool)
         (regsA regsG : seq (registration F)) (dampA dampG : nat -> F)
         (A : 'M[F]_(rows m has_bias)) (G : 'M[F]_n)
         (inputs : dense F (rows m has_bias)) (outputs : dense F n) (ia ig : nat) (renorm : F)
         (v : params F m n has_bias),
    eigh_contract eigh -> power_laws pow -> clip <= 0 ->
    up_to_date eigh pow threshold clip meth regsA dampA A inputs ->
    up_to_date eigh pow threshold clip meth regsG dampG G outputs ->
    psd A -> psd G -> 0 < dampA ia -> 0 < dampG ig -> 0 < renorm ->
    List.In (RegCholesky F ia) regsA -> List.In (RegCholesky F ig) regsG ->
    let cholesky := kron_multiply_cholesky pow (get_cholesky inputs ia) (get_cholesky outputs ig) renorm in
    exists u w,
      [/\ cholesky v true = Ok u, cholesky u false = Ok w
        & kron_multiply_matpower pow (fun e => get_matpower inputs dampA e ia)
            (fun e => get_matpower outputs dampG e ig) renorm v 1 = Ok w].
Proof.
move=> F eigh pow th clip meth m n b rA rG dA dG A G sA sG ia ig r v he hp hc uA uG pA pG a0 g0 r0 h1 h2.
exact: (kron_chol hp uA uG pA pG a0 g0 r0).
Qed.
Print Assumptions C43_kronecker_cholesky.

Theorem C43_kronecker_cholesky_inverse :
  forall (F : rcfType) (eigh : forall n, 'M[F]_n -> 'rV[F]_n * 'M[F]_n) (pow : F -> F -> F)
         (threshold : nat) (clip : F) (meth : posdef_inv_method) (m n : nat) (has_bias : bool)
         (regsA regsG : seq (registration F)) (dampA dampG : nat -> F)
         (A : 'M[F]_(rows m has_bias)) (G : 'M[F]_n)
         (inputs : dense F (rows m has_bias)) (outputs : dense F n) (ia ig : nat) (renorm : F)
         (v : params F m n has_bias) (transpose : bool),
    eigh_contract eigh -> power_laws pow -> clip <= 0 ->
    up_to_date eigh pow threshold clip meth regsA dampA A inputs ->
    up_to_date eigh pow threshold clip meth regsG dampG G outputs ->
    psd A -> psd G -> 0 < dampA ia -> 0 < dampG ig -> 0 < renorm ->
    List.In (RegCholesky F ia) regsA -> List.In (RegCholesky F ig) regsG ->
    List.In (RegCholeskyInverse F ia) regsA -> List.In (RegCholeskyInverse F ig) regsG ->
    exists u,
      kron_multiply_cholesky pow (get_cholesky inputs ia) (get_cholesky outputs ig) renorm v transpose = Ok u /\
      kron_multiply_cholesky_inverse pow (get_cholesky_inverse inputs ia) (get_cholesky_inverse outputs ig)
        renorm u transpose = Ok v.
Proof.
move=> F eigh pow th clip meth m n b rA rG dA dG A G sA sG ia ig r v t he hp hc uA uG pA pG a0 g0 r0 h1 h2 h3 h4.
exact: (kron_cholinv hp uA uG pA pG a0 g0 r0).
Qed.
Print Assumptions C43_kronecker_cholesky_inverse.

Theorem C43_full_cholesky :
  forall (F : rcfType) (eigh : forall n, 'M[F]_n -> 'rV[F]_n * 'M[F]_n) (pow : F -> F -> F)
         (threshold : nat) (clip : F) (meth : posdef_inv_method) (m n : nat) (has_bias : bool)
         (regs : seq (registration F)) (damp : nat -> F) (C : 'M[F]_(rows m has_bias * n))
         (factor : dense F (rows m has_bias * n)) (id : nat) (v : params F m n has_bias) (transpose : bool),
    eigh_contract eigh -> power_laws pow -> clip <= 0 ->
    up_to_date eigh pow threshold clip meth regs damp C factor -> psd C -> 0 < damp id ->
    List.In (RegCholesky F id) regs -> List.In (RegCholeskyInverse F id) regs ->
    (exists u w, [/\ full_multiply (get_cholesky factor id) v true = Ok u,
                     full_multiply (get_cholesky factor id) u false = Ok w
                   & full_multiply (get_matpower factor damp 1 id) v false = Ok w]) /\
    (exists u, full_multiply (get_cholesky factor id) v transpose = Ok u /\
               full_multiply (get_cholesky_inverse factor id) u transpose = Ok v).
Proof.
move=> F eigh pow th clip meth m n b regs damp C s id v t he hp hc u pC d0 h1 h2; split.
- exact: (full_chol u pC d0).
- exact: (full_cholinv u pC d0).
Qed.
Print Assumptions C43_full_cholesky.

(** The power products of full blocks. *)
Theorem C43_full_powers :
  forall (F : rcfType) (eigh : forall n, 'M[F]_n -> 'rV[F]_n * 'M[F]_n) (pow : F -> F -> F)
         (threshold : nat) (clip : F) (meth : posdef_inv_method) (m n : nat) (has_bias : bool)
         (regs : seq (registration F)) (damp : nat -> F) (C : 'M[F]_(rows m has_bias * n))
         (factor : dense F (rows m has_bias * n)) (id : nat) (v : params F m n has_bias) (e : F),
    eigh_contract eigh -> power_laws pow -> clip <= 0 ->
    up_to_date eigh pow threshold clip meth regs damp C factor -> psd C -> 0 < damp id ->
    e = 1 \/ List.In (RegMatpower e id) regs ->
    exists w, full_multiply (get_matpower factor damp e id) v false = Ok w /\
      forall cv cw, is_column v cv -> is_column w cw ->
        exists P, is_matpower pow (C + damp id *: 1%:M) e P /\ cw = P *m cv.
Proof.
move=> F eigh pow th clip meth m n b regs damp C s id v e he hp hc u pC d0 h.
exact: (full_power he hp hc u pC d0).
Qed.
Print Assumptions C43_full_powers.

(** Diagonal blocks: entries of the column are multiplied by the power of the damped diagonal
    entry in the same position; the Cholesky factor is the square root. *)
Theorem C43_diagonal :
  forall (F : rcfType) (pow : F -> F -> F) (m n : nat) (has_bias : bool)
         (d : 'rV[F]_(rows m has_bias * n)) (damping e : F) (v : params F m n has_bias) (t t' : bool),
    power_laws pow -> (forall i, 0 < d 0 i + damping) ->
    (forall cv cw, is_column v cv ->
       is_column (diagonal_multiply (diag_get_matpower pow d e damping) v t) cw ->
       forall i, cw i 0 = pow (d 0 i + damping) e * cv i 0) /\
    diagonal_multiply (diag_get_cholesky pow d damping)
      (diagonal_multiply (diag_get_cholesky pow d damping) v t) t' =
    diagonal_multiply (diag_get_matpower pow d 1 damping) v false /\
    diagonal_multiply (diag_get_cholesky_inverse pow d damping)
      (diagonal_multiply (diag_get_cholesky pow d damping) v t) t' = v.
Proof.
move=> F pow m n b d damping e v t t' hp h; split; [|split].
- by move=> cv cw hv hw; apply: (diag_block_power (pow := pow) h _ hv hw).
- exact: diag_block_cholesky.
- exact: diag_block_cholesky_inverse.
Qed.
Print Assumptions C43_diagonal.

Example C43_hypotheses_met : forall F : rcfType,
  exists (C : 'M[F]_(rows 1 true * 2)) (factor : dense F (rows 1 true * 2)),
    psd C /\ up_to_date (@an_eigh F) (@a_pow F) 4 0 EigMethod [:: RegCholesky F 3; RegCholeskyInverse F 3]
               (fun=> 2^-1) C factor.
Proof.
move=> F.
have [s h] := up_to_date_exists (@an_eigh F) (@a_pow F) 4 0 EigMethod [:: RegCholesky F 3; RegCholeskyInverse F 3]
  (fun=> 2^-1) (const_mx 1 : 'M[F]_(rows 1 true * 2)).
by exists (const_mx 1), s; split => //; exact: psd_const.
Qed.

(* ======================================================================= *)
(** ** C44 *)

(** After any updates with non-negative decays and weights (a decay in [0, 1] and one minus it
    in particular), the covariances are positive semidefinite. *)
Theorem C44_covariances_psd :
  forall (F : rcfType) (normalize : bool) (num_replicas num_sources num_towers n : nat),
    let nonneg X (updates : seq ((nat -> nat -> nat -> X) * (F * F))) :=
      List.Forall (fun u => 0 <= u.2.1 /\ 0 <= u.2.2) updates in
    (forall updates, nonneg _ updates ->
       psd (covariance_after normalize (@fc_new_cov F n) num_replicas num_sources num_towers updates)) /\
    (forall updates, nonneg _ updates ->
       psd (covariance_after normalize (@fc_new_cov_bias F n) num_replicas num_sources num_towers updates)) /\
    (forall updates, nonneg _ updates ->
       psd (covariance_after normalize (@convin_new_cov F n) num_replicas num_sources num_towers updates)) /\
    (forall batch_size : F, 0 <= batch_size -> forall updates, nonneg _ updates ->
       psd (covariance_after normalize (fun grad : 'rV[F]_n => naivefull_new_cov grad batch_size)
              num_replicas num_sources num_towers updates)).
Proof.
move=> F nz R S T n /=; split; [|split; [|split]].
- by move=> us h; apply: history_psd => // l; exact: fc_psd.
- by move=> us h; apply: history_psd => // l; exact: fcb_psd.
- by move=> us h; apply: history_psd => // l; exact: conv_psd.
- by move=> b b0 us h; apply: history_psd => // g; exact: (@naive_psd F n (g, b)).
Qed.
Print Assumptions C44_covariances_psd.

(** The same for the centred covariance of the spatially uncorrelated activations factor. *)
Theorem C44_sua_covariance_psd :
  forall (F : rcfType) (c : nat) (normalize assume_zero_mean subtract_mean : bool)
         (num_replicas num_towers : nat) (updates : seq ((nat -> nat -> seq 'rV[F]_c) * (F * F))),
    (0 < num_replicas)%N -> (0 < num_towers)%N ->
    List.Forall (fun u =>
      [/\ forall r t, (r < num_replicas)%N -> (t < num_towers)%N -> (0 < size (u.1 r t))%N,
          0 <= u.2.1 & 0 <= u.2.2]) updates ->
    psd (sua_covariance_after normalize assume_zero_mean subtract_mean num_replicas num_towers updates).
Proof. by move=> *; apply: sua_history. Qed.
Print Assumptions C44_sua_covariance_psd.

(** Diagonal factors stay non-negative. *)
Theorem C44_diagonals_nonnegative :
  forall (F : rcfType) (normalize : bool) (num_replicas num_sources num_towers m n : nat),
    let nonneg X (updates : seq ((nat -> nat -> nat -> X) * (F * F))) :=
      List.Forall (fun u => 0 <= u.2.1 /\ 0 <= u.2.2) updates in
    (forall updates, nonneg _ updates -> forall i j,
       0 <= covariance_after normalize (@diagkron_new_cov F n) num_replicas num_sources num_towers updates i j) /\
    (forall updates, nonneg _ updates -> forall i j,
       0 <= covariance_after normalize (@diagkron_new_cov_bias F n) num_replicas num_sources num_towers
              updates i j) /\
    (forall updates, nonneg _ updates -> forall i j,
       0 <= covariance_after normalize (@fcdiag_new_cov F m n) num_replicas num_sources num_towers updates i j) /\
    (forall updates, nonneg _ updates -> forall i j,
       0 <= covariance_after normalize (@fcdiag_new_cov_bias F m n) num_replicas num_sources num_towers
              updates i j) /\
    (forall updates, nonneg _ updates -> forall i j,
       0 <= covariance_after normalize (@convdiag_new_cov F m n) num_replicas num_sources num_towers
              updates i j) /\
    (forall updates, nonneg _ updates -> forall i j,
       0 <= covariance_after normalize (@convdiag_new_cov_bias F m n) num_replicas num_sources num_towers
              updates i j).
Proof.
move=> F nz R S T m n /=; do ! split; move=> us h i j; apply: history_ge0 => // *;
  first [exact: diagkron_ge0 | exact: diagkronb_ge0 | exact: fcdiag_ge0 | exact: convdiag_ge0].
Qed.
Print Assumptions C44_diagonals_nonnegative.

(** Adding any positive damping makes a positive semidefinite matrix positive definite and
    invertible. *)
Theorem C44_damped_invertible :
  forall (F : rcfType) (n : nat) (C : 'M[F]_n) (damping : F),
    psd C -> 0 < damping -> pd (C + damping *: 1%:M) /\ (C + damping *: 1%:M) \in unitmx.
Proof. by move=> F n C d; apply: damped_pd. Qed.
Print Assumptions C44_damped_invertible.

(** Two updates on two replicas and two towers, with decay 1/2 and weight 1/2. *)
Example C44_hypotheses_met : forall F : rcfType,
  exists updates : seq ((nat -> nat -> nat -> seq 'rV[F]_2) * (F * F)),
    size updates = 2%N /\ List.Forall (fun u => 0 <= u.2.1 /\ 0 <= u.2.2) updates.
Proof.
move=> F.
exists [:: (fun _ _ _ => [:: const_mx 1; delta_mx 0 0], (2^-1, 2^-1));
           (fun _ _ t => nseq t (delta_mx 0 0), (2^-1, 2^-1))].
have h : (0 : F) <= 2^-1 by rewrite invr_ge0 ler0n.
by split => //; repeat constructor.
Qed.

(* ======================================================================= *)
(** ** C45 *)

(** Towers (and replicas) that all hold [b] examples give the covariance of a single tower
    holding all the examples. *)
Theorem C45_equal_towers_kronecker :
  forall (F : rcfType) (n num_replicas num_sources num_towers b : nat)
         (data : nat -> nat -> nat -> seq 'rV[F]_n),
    (0 < num_replicas)%N -> (0 < num_towers)%N -> (0 < b)%N ->
    (forall r s t, (r < num_replicas)%N -> (s < num_sources)%N -> (t < num_towers)%N ->
       size (data r s t) = b) ->
    let split (k : nat) (stat : seq 'rV[F]_n -> 'M[F]_(k, k)) :=
      compute_total_new_cov num_replicas num_sources num_towers (fun r s t => stat (data r s t)) =
      compute_total_new_cov 1 num_sources 1
        (fun _ s _ => stat (all_data num_replicas num_towers (fun r t => data r s t))) in
    let split_diagonal (k : nat) (stat : seq 'rV[F]_n -> 'rV[F]_k) :=
      compute_total_new_cov num_replicas num_sources num_towers (fun r s t => stat (data r s t)) =
      compute_total_new_cov 1 num_sources 1
        (fun _ s _ => stat (all_data num_replicas num_towers (fun r t => data r s t))) in
    [/\ split _ (@fc_new_cov F n), split _ (@fc_new_cov_bias F n),
        split_diagonal _ (@diagkron_new_cov F n) & split_diagonal _ (@diagkron_new_cov_bias F n)].
Proof.
move=> F n R S T b data hR hT hb h; split.
- exact: (towers_avg h (@fc_avg F n)).
- exact: (towers_avg h (@fcb_avg F n)).
- exact: (towers_avg h (@diagkron_avg F n)).
- exact: (towers_diagkronb hR hT hb h).
Qed.
Print Assumptions C45_equal_towers_kronecker.

Theorem C45_equal_towers_diagonal :
  forall (F : rcfType) (m n num_replicas num_sources num_towers b : nat)
         (data : nat -> nat -> nat -> seq ('rV[F]_m * 'rV[F]_n))
         (images : nat -> nat -> nat -> seq (seq ('rV[F]_m * 'rV[F]_n))),
    (forall r s t, (r < num_replicas)%N -> (s < num_sources)%N -> (t < num_towers)%N ->
       size (data r s t) = b /\ size (images r s t) = b) ->
    let split X k (stat : seq X -> 'M[F]_(k, n)) (data : nat -> nat -> nat -> seq X) :=
      compute_total_new_cov num_replicas num_sources num_towers (fun r s t => stat (data r s t)) =
      compute_total_new_cov 1 num_sources 1
        (fun _ s _ => stat (all_data num_replicas num_towers (fun r t => data r s t))) in
    [/\ split _ _ (@fcdiag_new_cov F m n) data, split _ _ (@fcdiag_new_cov_bias F m n) data,
        split _ _ (@convdiag_new_cov F m n) images & split _ _ (@convdiag_new_cov_bias F m n) images].
Proof.
move=> F m n R S T b data images h.
have h1 r s t : (r < R)%N -> (s < S)%N -> (t < T)%N -> size (data r s t) = b
  by move=> a1 a2 a3; case: (h r s t a1 a2 a3).
have h2 r s t : (r < R)%N -> (s < S)%N -> (t < T)%N -> size (images r s t) = b
  by move=> a1 a2 a3; case: (h r s t a1 a2 a3).
split.
- exact: (towers_avg h1 (@fcdiag_avg F m n)).
- exact: (towers_avg h1 (@fcdiagb_avg F m n)).
- exact: (towers_avg h2 (@convdiag_avg F m n)).
- exact: (towers_avg h2 (@convdiagb_avg F m n)).
Qed.
Print Assumptions C45_equal_towers_diagonal.

(** Convolutions: every example has the same number of locations. *)
Theorem C45_equal_towers_convolution :
  forall (F : rcfType) (n num_replicas num_sources num_towers b locations : nat)
         (data : nat -> nat -> nat -> seq (seq 'rV[F]_n)),
    (forall r s t, (r < num_replicas)%N -> (s < num_sources)%N -> (t < num_towers)%N ->
       size (data r s t) = b /\ forall e, List.In e (data r s t) -> size e = locations) ->
    compute_total_new_cov num_replicas num_sources num_towers (fun r s t => convin_new_cov (data r s t)) =
    compute_total_new_cov 1 num_sources 1
      (fun _ s _ => convin_new_cov (all_data num_replicas num_towers (fun r t => data r s t))).
Proof. move=> F n R S T b k data h; exact: (towers_conv h). Qed.
Print Assumptions C45_equal_towers_convolution.

(** "Unequal towers are detected and rejected" is false: with one source (the usual number) only the first
    tower is compared with itself, so towers of two and one examples are accepted, although their covariance
    is not that of the three examples. *)
Theorem C45_unequal_towers_rejected_refuted : forall F : rcfType,
  exists data : nat -> seq 'rV[F]_1,
    check_all_batch_sizes None [:: BatchInfo 1 2 (fun _ t => size (data t))] = Ok tt /\
    check_all_batch_sizes (Some 3%N) [:: BatchInfo 1 2 (fun _ t => size (data t))] = Ok tt /\
    size (data 0%N) <> size (data 1%N) /\
    compute_total_new_cov 1 1 2 (fun _ _ t => fc_new_cov (data t)) <>
    compute_total_new_cov 1 1 1 (fun _ _ _ => fc_new_cov (all_data 1 2 (fun _ t => data t))).
Proof.
move=> F; exists (fun t => if t == 0%N then [:: 0; 0] else [:: 1%:M]); split; [|split; [|split]] => //.
- by apply/check_all_spec => f [<-|[]] /=; split => // -[].
- by apply/check_all_spec => f [<-|[]] /=; split; [rewrite !big_ord_recl big_ord0|case].
- exact: unequal_towers.
Qed.
Print Assumptions C45_unequal_towers_rejected_refuted.

(** What the check does: every factor's total batch size is the reference, and the partial
    sizes of source i, tower i agree.  When the sizes do not depend on the source and there are at
    least as many sources as towers, unequal towers are rejected. *)
Theorem C45_unequal_towers_rejected_partial :
  forall (batch_size : option nat) (first : batch_info) (others : seq batch_info),
    check_all_batch_sizes batch_size (first :: others) = Ok tt ->
    forall f, List.In f (first :: others) ->
      (\sum_(t < b_towers f) b_sizes f 0 t =
         if batch_size is Some b then b else \sum_(t < b_towers first) b_sizes first 0 t)%N /\
      ((b_towers f <= b_sources f)%N -> (forall s t, b_sizes f s t = b_sizes f 0%N t) ->
       forall t, (t < b_towers f)%N -> b_sizes f 0%N t = b_sizes f 0%N 0%N).
Proof.
move=> bs first others /check_all_spec h f hf; have [h1 h2] := h f hf; split => //.
by move=> hs hi t ht; rewrite -(h2 t _ ht) ?hi // (leq_trans ht).
Qed.
Print Assumptions C45_unequal_towers_rejected_partial.

(** Equal towers are always accepted. *)
Theorem C45_equal_towers_accepted :
  forall (first : batch_info) (others : seq batch_info) b,
    (forall f, List.In f (first :: others) -> b_towers f = b_towers first /\
       forall s t, (t < b_towers f)%N -> b_sizes f s t = b) ->
    check_all_batch_sizes None (first :: others) = Ok tt /\
    check_all_batch_sizes (Some (b_towers first * b)%N) (first :: others) = Ok tt.
Proof.
move=> first others b h.
have hs f : List.In f (first :: others) -> (\sum_(t < b_towers f) b_sizes f 0 t = b_towers first * b)%N.
  move=> hf; have [e he] := h f hf; rewrite -e (eq_bigr (fun=> b)) => [|t _]; last exact: he.
  by rewrite sum_nat_const card_ord.
by split; apply/check_all_spec => f hf; rewrite !hs //; try (by left); split => // i h1 h2;
  have [e he] := h f hf; rewrite !he // (leq_ltn_trans _ h2).
Qed.
Print Assumptions C45_equal_towers_accepted.

Example C45_hypotheses_met : forall F : rcfType,
  exists data : nat -> nat -> nat -> seq 'rV[F]_2,
    (forall r s t, size (data r s t) = 2%N) /\ data 0%N 0%N 0%N <> data 0%N 0%N 1%N.
Proof.
move=> F; exists (fun _ _ t => [:: const_mx t%:R; 0]); split => // -[] /matrixP /(_ 0 0).
by rewrite !mxE => /eqP; rewrite eq_sym oner_eq0.
Qed.

(* ======================================================================= *)
(** ** C46 *)

(** The diagonal of the factor: in the position of each coordinate of the parameters, the mean over the
    batch of the squared derivative of the example's loss with respect to it. *)
Theorem C46_fully_connected_diagonal_aligned :
  forall (F : rcfType) (m n : nat) (examples : seq ('rV[F]_m * 'rV[F]_n)),
    (forall gradient : 'rV[F]_m * 'rV[F]_n -> 'cV[F]_(rows m false * n),
       (forall e, is_gradient [:: e] (gradient e)) ->
       forall p, matrix_diagonal (fcdiag_new_cov examples) 0 p =
         (size examples)%:R^-1 * \sum_(e <- examples) (gradient e p 0) ^+ 2) /\
    (forall gradient : 'rV[F]_m * 'rV[F]_n -> 'cV[F]_(rows m true * n),
       (forall e, is_gradient [:: e] (gradient e)) ->
       forall p, matrix_diagonal (fcdiag_new_cov_bias examples) 0 p =
         (size examples)%:R^-1 * \sum_(e <- examples) (gradient e p 0) ^+ 2).
Proof. by move=> F m n ex; split=> g hg p; [exact: fc_aligned|exact: fc_aligned_bias]. Qed.
Print Assumptions C46_fully_connected_diagonal_aligned.

(** Convolutions: an example's loss depends on the filter through every location. *)
Theorem C46_convolution_diagonal_aligned :
  forall (F : rcfType) (m n : nat) (examples : seq (seq ('rV[F]_m * 'rV[F]_n))),
    (forall gradient : seq ('rV[F]_m * 'rV[F]_n) -> 'cV[F]_(rows m false * n),
       (forall e, is_gradient e (gradient e)) ->
       forall p, matrix_diagonal (convdiag_new_cov examples) 0 p =
         (size examples)%:R^-1 * \sum_(e <- examples) (gradient e p 0) ^+ 2) /\
    (forall gradient : seq ('rV[F]_m * 'rV[F]_n) -> 'cV[F]_(rows m true * n),
       (forall e, is_gradient e (gradient e)) ->
       forall p, matrix_diagonal (convdiag_new_cov_bias examples) 0 p =
         (size examples)%:R^-1 * \sum_(e <- examples) (gradient e p 0) ^+ 2).
Proof. by move=> F m n ex; split=> g hg p; [exact: conv_aligned|exact: conv_aligned_bias]. Qed.
Print Assumptions C46_convolution_diagonal_aligned.

(** Gradients exist, with and without bias. *)
Example C46_hypotheses_met : forall (F : rcfType) (m n : nat) (has_bias : bool),
  exists gradient : seq ('rV[F]_m * 'rV[F]_n) -> 'cV[F]_(rows m has_bias * n),
    forall e, is_gradient e (gradient e).
Proof. move=> F m n b; exact: gradient_exists. Qed.

(* ======================================================================= *)
(** ** C47 *)

Theorem C47_sua_inverse :
  forall (F : rcfType) (eigh : forall n, 'M[F]_n -> 'rV[F]_n * 'M[F]_n) (c kk : nat)
         (meth : posdef_inv_method) (zero_mean : bool) (cov : 'M[F]_c) (mu : 'cV[F]_c) (damping : F),
    eigh_contract eigh -> psd cov -> 0 < damping ->
    let M := sua_cov_operator kk zero_mean cov mu damping in
    let inverse := sua_inverse_operator kk zero_mean (sua_update eigh kk meth false cov mu damping) in
    M *m inverse = 1%:M /\ inverse *m M = 1%:M.
Proof.
move=> F eigh c kk meth zm cov mu d he hc hd M I.
by have h := sua_inverse he kk meth zm mu hc hd; split => //; exact: mulmx1C h.
Qed.
Print Assumptions C47_sua_inverse.

Theorem C47_sua_inverse_bias :
  forall (F : rcfType) (eigh : forall n, 'M[F]_n -> 'rV[F]_n * 'M[F]_n) (c kk : nat)
         (meth : posdef_inv_method) (zero_mean : bool) (cov : 'M[F]_c) (mu : 'cV[F]_c) (damping : F),
    eigh_contract eigh -> psd cov -> 0 < damping ->
    let M := sua_cov_operator_bias kk zero_mean cov mu damping in
    let inverse := sua_inverse_operator_bias kk zero_mean (sua_update eigh kk meth true cov mu damping) in
    M *m inverse = 1%:M /\ inverse *m M = 1%:M.
Proof.
move=> F eigh c kk meth zm cov mu d he hc hd M I.
by have h := sua_inverse_bias he kk meth zm mu hc hd; split => //; exact: mulmx1C h.
Qed.
Print Assumptions C47_sua_inverse_bias.

Example C47_hypotheses_met : forall F : rcfType,
  [/\ eigh_contract (@an_eigh F), psd (const_mx 1 : 'M[F]_3) & (0 : F) < 2^-1].
Proof. by move=> F; split; [exact: an_eigh_contract|exact: psd_const|rewrite invr_gt0 ltr0n]. Qed.

(* ======================================================================= *)
(** ** C58 *)

(** Setting up always succeeds. *)
Theorem C58_setup_succeeds :
  forall (F : rcfType) (n threshold : nat) (inverse_init : 'M[F]_n) (regs : seq (registration F)),
    exists ops s0, finalize threshold inverse_init regs = Ok (ops, s0).
Proof. by move=> F n th init regs; exact: finalize_total. Qed.
Print Assumptions C58_setup_succeeds.

(** A registered power is updated by exactly one of the inverse update ops.  Once that op has run, what is
    served is the power of the covariance and damping at its last run; before, the initial value. *)
Theorem C58_served_power_is_last_update :
  forall (F : rcfType) (eigh : forall n, 'M[F]_n -> 'rV[F]_n * 'M[F]_n) (pow : F -> F -> F)
         (n threshold : nat) (clip : F) (meth : posdef_inv_method) (inverse_init : 'M[F]_n)
         (regs : seq (registration F)) ops s0 (e : F) (id : nat),
    eigh_contract eigh -> power_laws pow -> clip <= 0 ->
    finalize threshold inverse_init regs = Ok (ops, s0) ->
    List.In (RegMatpower e id) regs -> e <> 1 ->
    exists k, (k < size ops)%N /\
      (forall before damping after, ~ runs k after ->
         psd (cov_after 0 before) -> 0 < damping id ->
         forall now, exists P,
           get_matpower (run eigh pow clip meth ops s0 (before ++ RunOp n k damping :: after)) now e id
             = Ok (FullMatrix P) /\
           is_matpower pow (cov_after 0 before + damping id *: 1%:M) e P) /\
      (forall history now, ~ runs k history ->
         get_matpower (run eigh pow clip meth ops s0 history) now e id = Ok (FullMatrix inverse_init)).
Proof.
move=> F eigh pow n th clip meth init regs ops s0 e id he hp hc hf hr hn.
exact: (served_matpower he hp meth hc hf hr hn).
Qed.
Print Assumptions C58_served_power_is_last_update.

(** The same for Cholesky factors: the lower triangular factor with positive diagonal. *)
Theorem C58_served_cholesky_is_last_update :
  forall (F : rcfType) (eigh : forall n, 'M[F]_n -> 'rV[F]_n * 'M[F]_n) (pow : F -> F -> F)
         (n threshold : nat) (clip : F) (meth : posdef_inv_method) (inverse_init : 'M[F]_n)
         (regs : seq (registration F)) ops s0 (id : nat),
    finalize threshold inverse_init regs = Ok (ops, s0) ->
    List.In (RegCholesky F id) regs ->
    exists k, (k < size ops)%N /\
      (forall before damping after, ~ runs k after ->
         psd (cov_after 0 before) -> 0 < damping id ->
         exists L,
           get_cholesky (run eigh pow clip meth ops s0 (before ++ RunOp n k damping :: after)) id
             = Ok (FullMatrix L) /\
           [/\ L *m L^T = cov_after 0 before + damping id *: 1%:M,
               forall i j : 'I_n, (i < j)%N -> L i j = 0 & forall i, 0 < L i i]) /\
      (forall history, ~ runs k history ->
         get_cholesky (run eigh pow clip meth ops s0 history) id = Ok (FullMatrix inverse_init)).
Proof.
move=> F eigh pow n th clip meth init regs ops s0 id hf hr.
exact: (served_cholesky eigh pow clip meth hf hr).
Qed.
Print Assumptions C58_served_cholesky_is_last_update.

(** ... and for inverses of Cholesky factors. *)
Theorem C58_served_cholesky_inverse_is_last_update :
  forall (F : rcfType) (eigh : forall n, 'M[F]_n -> 'rV[F]_n * 'M[F]_n) (pow : F -> F -> F)
         (n threshold : nat) (clip : F) (meth : posdef_inv_method) (inverse_init : 'M[F]_n)
         (regs : seq (registration F)) ops s0 (id : nat),
    finalize threshold inverse_init regs = Ok (ops, s0) ->
    List.In (RegCholeskyInverse F id) regs ->
    exists k, (k < size ops)%N /\
      (forall before damping after, ~ runs k after ->
         psd (cov_after 0 before) -> 0 < damping id ->
         exists L J,
           get_cholesky_inverse (run eigh pow clip meth ops s0 (before ++ RunOp n k damping :: after)) id
             = Ok (FullMatrix J) /\ J *m L = 1%:M /\
           [/\ L *m L^T = cov_after 0 before + damping id *: 1%:M,
               forall i j : 'I_n, (i < j)%N -> L i j = 0 & forall i, 0 < L i i]) /\
      (forall history, ~ runs k history ->
         get_cholesky_inverse (run eigh pow clip meth ops s0 history) id = Ok (FullMatrix inverse_init)).
Proof.
move=> F eigh pow n th clip meth init regs ops s0 id hf hr.
exact: (served_cholinv eigh pow clip meth hf hr).
Qed.
Print Assumptions C58_served_cholesky_inverse_is_last_update.

(** The matrix itself (exponent 1) is never stale: current covariance, current damping.  What was never
    registered is a KeyError. *)
Theorem C58_current_matrix_and_unregistered :
  forall (F : rcfType) (eigh : forall n, 'M[F]_n -> 'rV[F]_n * 'M[F]_n) (pow : F -> F -> F)
         (n threshold : nat) (clip : F) (meth : posdef_inv_method) (inverse_init : 'M[F]_n)
         (regs : seq (registration F)) ops s0 (history : seq (event F n)) (now : nat -> F) (e : F) (id : nat),
    finalize threshold inverse_init regs = Ok (ops, s0) ->
    let s := run eigh pow clip meth ops s0 history in
    [/\ get_matpower s now 1 id = Ok (FullMatrix (cov_after 0 history + now id *: 1%:M)),
        e <> 1 -> ~ List.In (RegMatpower e id) regs -> get_matpower s now e id = Raise KeyError,
        ~ List.In (RegCholesky F id) regs -> get_cholesky s id = Raise KeyError
      & ~ List.In (RegCholeskyInverse F id) regs -> get_cholesky_inverse s id = Raise KeyError].
Proof.
move=> F eigh pow n th clip meth init regs ops s0 h now e id hf s.
have [h1 [h2 h3]] := unserved eigh pow clip meth hf h now e id.
by split => //; exact: (served_one eigh pow clip meth hf).
Qed.
Print Assumptions C58_current_matrix_and_unregistered.

(** A history in which the covariance changes after the inverses were computed. *)
Example C58_hypotheses_met : forall F : rcfType,
  exists ops s0 (before after : seq (event F 2)),
    [/\ finalize 4 (1%:M : 'M[F]_2) [:: RegMatpower (-1) 7; RegCholesky F 7] = Ok (ops, s0),
        ~ runs 0 after, psd (cov_after 0 before)
      & cov_after 0 before <> cov_after 0 (before ++ RunOp _ 0 (fun=> 1) :: after)].
Proof.
move=> F; have [ops [s0 h]] := finalize_total 4 (1%:M : 'M[F]_2) [:: RegMatpower (-1) 7; RegCholesky F 7].
exists ops, s0, [:: NewCov (const_mx 1)], [:: NewCov 0]; split => //=.
- by move=> [d] /= [].
- exact: psd_const.
- by move=> /matrixP /(_ 0 0); rewrite !mxE => /eqP; rewrite oner_eq0.
Qed.

(* ======================================================================= *)
(** ** C59 *)

(** The operator should pair filter position (s, i), which is row [s * c + i] of the reshaped filter (spatial
    position first, then input channel), with (s', i') through the channel covariance: zero when the spatial
    positions differ (zero-mean case).  This is false. *)
Theorem C59_sua_filter_order_refuted : forall F : rcfType,
  exists (cov : 'M[F]_2) (p q : 'I_(2 * 2)) (s s' i i' : 'I_2),
    [/\ psd cov, nat_of_ord p = (s * 2 + i)%N, nat_of_ord q = (s' * 2 + i')%N, s <> s'
      & sua_cov_operator 2 true cov 0 0 p q <> 0].
Proof. exact: sua_order_refuted. Qed.
Print Assumptions C59_sua_filter_order_refuted.

(** It holds with the channel first: row [i * kk + s]. *)
Theorem C59_sua_filter_order_partial :
  forall (F : rcfType) (c kk : nat) (zero_mean : bool) (cov : 'M[F]_c) (mu : 'cV[F]_c) (damping : F)
         (i i' : 'I_c) (s s' : 'I_kk) (p q : 'I_(c * kk)),
    nat_of_ord p = (i * kk + s)%N -> nat_of_ord q = (i' * kk + s')%N ->
    sua_cov_operator kk zero_mean cov mu damping p q =
    (cov i i' + damping * (i == i')%:R) * (s == s')%:R + (if zero_mean then 0 else mu i 0 * mu i' 0).
Proof. by move=> *; apply: sua_entries. Qed.
Print Assumptions C59_sua_filter_order_partial.

(** The two orders agree for 1 x 1 filters and for a single input channel. *)
Theorem C59_sua_filter_order_degenerate_partial :
  forall (F : rcfType) (c kk : nat) (zero_mean : bool) (cov : 'M[F]_c) (mu : 'cV[F]_c) (damping : F)
         (i i' : 'I_c) (s s' : 'I_kk) (p q : 'I_(c * kk)),
    c = 1%N \/ kk = 1%N ->
    nat_of_ord p = (s * c + i)%N -> nat_of_ord q = (s' * c + i')%N ->
    sua_cov_operator kk zero_mean cov mu damping p q =
    (cov i i' + damping * (i == i')%:R) * (s == s')%:R + (if zero_mean then 0 else mu i 0 * mu i' 0).
Proof. exact: sua_order_degenerate. Qed.
Print Assumptions C59_sua_filter_order_degenerate_partial.

Example C59_hypotheses_met :
  exists (i i' : 'I_3) (s s' : 'I_4) (p q : 'I_(3 * 4)),
    [/\ nat_of_ord p = (i * 4 + s)%N, nat_of_ord q = (i' * 4 + s')%N & p <> q].
Proof.
by exists (inord 1), (inord 2), (inord 3), (inord 0), (inord 7), (inord 8);
  split; rewrite ?inordK // => /(congr1 val); rewrite /= !inordK.
Qed.

(* ======================================================================= *)
(** ** C60 *)

(** A sparse gradient (row indices, possibly repeated, and rows) of a layer with diagonal input factor: the
    result, made dense, is the product for the gradient made dense. *)
Theorem C60_sparse_product_agrees :
  forall (F : rcfType) (m n : nat) (d : 'rV[F]_m) (M : 'M[F]_n) (s : slices F m n) (scale : F)
         (transpose_left : bool),
    exists out,
      multiply_factored_matrix_sparse (DiagOp d) (FullMatrix M) s scale transpose_left false = Ok out /\
      densify out =
      multiply_factored_matrix (m := m) (has_bias := false) (DiagOp d) (FullMatrix M) (densify s) scale
        transpose_left false.
Proof. by move=> *; exact: sparse_agrees. Qed.
Print Assumptions C60_sparse_product_agrees.

(** Every other combination of factors is an error rather than a wrong result; so is the product with a
    Cholesky factor, which transposes on the right. *)
Theorem C60_other_combinations_raise :
  forall (F : rcfType) (m n : nat) (left : linop F m) (right : linop F n) (s : slices F m n) (scale : F)
         (transpose_left transpose_right : bool) out,
    multiply_factored_matrix_sparse left right s scale transpose_left transpose_right = Ok out ->
    (exists d, left = DiagOp d) /\ (exists M, right = FullMatrix M) /\ transpose_right = false.
Proof.
move=> F m n [M|d] [M'|d'] s sc tl [] out; rewrite /multiply_factored_matrix_sparse //= => _.
by split; [exists d|split; [exists M'|]].
Qed.
Print Assumptions C60_other_combinations_raise.

(** The rows at a repeated index add up. *)
Example C60_hypotheses_met : forall F : rcfType,
  let row : 'rV[F]_2 := const_mx 1 in
  densify [:: (ord0 : 'I_2, row); (ord0 : 'I_2, row)] = 2 *: ((delta_mx ord0 (0 : 'I_1) : 'cV[F]_2) *m row).
Proof. by move=> F row; rewrite /densify !big_cons big_nil addr0 scaler_nat mulr2n. Qed.

(* ======================================================================= *)
(** ** C61 *)

(** The mask is applied per filter position by the factors of the Kronecker-factored block. *)
Theorem C61_kronecker_patch_mask :
  forall (F : rcfType) (kh kw cin : nat) (mask : nat -> nat -> nat -> F) (p : patches F),
    p_depth p = (kh * kw * cin)%N ->
    exists q, convin_mask_patches kh kw cin mask p = Ok q /\ is_masked kh kw cin mask p q.
Proof. by move=> *; exact: convin_mask. Qed.
Print Assumptions C61_kronecker_patch_mask.

(** In the diagonal block it is not: with 2 x 2 filters and two channels every mask is an error, and with one
    channel and 2 x 2 locations the mask is applied per location. *)
Theorem C61_diagonal_patch_mask_refuted : forall F : rcfType,
  (forall (mask : nat -> nat -> nat -> F) (p : patches F), p_depth p = (2 * 2 * 2)%N ->
     convdiag_mask_patches 2 2 2 mask p = Raise ValueError) /\
  (exists (mask : nat -> nat -> nat -> F) (p q : patches F),
     p_depth p = (2 * 2 * 1)%N /\ convdiag_mask_patches 2 2 1 mask p = Ok q /\
     ~ is_masked 2 2 1 mask p q).
Proof. exact: mask_refuted. Qed.
Print Assumptions C61_diagonal_patch_mask_refuted.

(** 1 x 1 filters work. *)
Theorem C61_diagonal_patch_mask_partial :
  forall (F : rcfType) (cin : nat) (mask : nat -> nat -> nat -> F) (p : patches F), p_depth p = cin ->
    exists q, convdiag_mask_patches 1 1 cin mask p = Ok q /\ is_masked 1 1 cin mask p q.
Proof. by move=> *; exact: convdiag_mask_11. Qed.
Print Assumptions C61_diagonal_patch_mask_partial.

Example C61_hypotheses_met : forall F : rcfType,
  p_depth (Patches 5 7 7 (3 * 3 * 2) (fun _ _ _ _ => 1 : F)) = (3 * 3 * 2)%N.
Proof. by []. Qed.
