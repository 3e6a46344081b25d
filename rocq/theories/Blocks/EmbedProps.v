(** Property theorems C118: an embedding layer is preconditioned exactly like the dense layer that
    reads one-hot vectors. *)
From mathcomp Require Import all_ssreflect all_algebra.
From Verif.Base Require Import Py.
From Verif.Blocks Require Import Model Spec MatProofs PsdProofs EigProofs FactorProofs ServeProofs BlockProofs
  StatProofs SuaProofs EndProofs EmbedModel EmbedSpec EmbedProofs.
Set Implicit Arguments.
Unset Strict Implicit.
Unset Printing Implicit Defensive.
Import GRing.Theory Num.Theory Order.TTheory.
Local Open Scope ring_scope.

(** The layer: looking up a row is multiplying by a one-hot vector, and the sparse gradient of the
    weights (the output gradients, at the rows looked up) is the gradient of the dense layer. *)
Theorem C118_layer :
  forall (F : rcfType) (m n : nat),
    (forall (W : params F m n false) (i : nat) (x : 'rV[F]_m), is_one_hot i x -> looks_up W i (fc_output W x)) /\
    (forall (s : slices F m n) (uses : seq ('rV[F]_m * 'rV[F]_n)) c,
       List.Forall2 (fun p u => is_one_hot (nat_of_ord p.1) u.1 /\ u.2 = p.2) s uses ->
       is_column (has_bias := false) (densify s) c -> is_gradient (has_bias := false) uses c).
Proof.
move=> F m n; split; first by move=> W i x; exact: one_hot_row.
by move=> s uses c; exact: slices_gradient.
Qed.
Print Assumptions C118_layer.

(** The statistic: with the diagonal input factor, indices give the same operator as their one-hot
    vectors give with either input factor, for one use or several (in both layouts): the diagonal
    matrix of the frequencies of the indices in the batch. *)
Theorem C118_statistic :
  forall (F : rcfType) (n : nat),
    (forall (multi diagonal : bool) (ids : seq nat) (rows : seq 'rV[F]_n), one_hots ids rows ->
       exists A B,
         [/\ input_statistic true multi (Ids1 F n ids) = Ok A,
             input_statistic diagonal multi (Rows2 rows) = Ok B,
             lo_dense A = lo_dense B
           & forall i j, lo_dense A i j = if i == j then frequency F ids i else 0]) /\
    (forall (diagonal : bool) (ids : seq (seq nat)) (rows : seq (seq 'rV[F]_n)), one_hots_by_use ids rows ->
       exists A B,
         [/\ input_statistic true true (Ids2 F n ids) = Ok A,
             input_statistic diagonal true (Rows3 rows) = Ok B,
             lo_dense A = lo_dense B
           & forall i j, lo_dense A i j = if i == j then frequency F (flatten ids) i else 0]).
Proof.
have entries (F : rcfType) n ids (i j : 'I_n) : diag_mx (diagkron_new_cov_sparse F n ids) i j =
    if i == j then frequency F ids i else 0.
  by rewrite mxE; case: eqP => [->|] //=; rewrite ?mulr1n ?mulr0n // stat_frequency.
move=> F n; split.
- move=> multi diagonal ids rows /one_hotsE ->.
  exists (DiagOp (diagkron_new_cov_sparse F n ids)).
  exists (if diagonal then DiagOp (diagkron_new_cov_sparse F n ids)
          else FullMatrix (diag_mx (diagkron_new_cov_sparse F n ids))).
  split; last exact: entries; try by case: multi.
    by case: multi; case: diagonal; rewrite /input_statistic /diag_new_cov /full_new_cov /= ?stat_dense_diag ?stat_exact.
  by case: diagonal.
- move=> diagonal ids rows /by_useE ->.
  exists (DiagOp (diagkron_new_cov_sparse F n (flatten ids))).
  exists (if diagonal then DiagOp (diagkron_new_cov_sparse F n (flatten ids))
          else FullMatrix (diag_mx (diagkron_new_cov_sparse F n (flatten ids)))).
  split; last exact: entries; try done; last by case: diagonal.
  by case: diagonal; rewrite /input_statistic /diag_new_cov /full_new_cov /= -map_flatten ?stat_dense_diag ?stat_exact.
Qed.
Print Assumptions C118_statistic.

(** The statistic after any history of updates, with any numbers of replicas, sources and towers. *)
Theorem C118_history :
  forall (F : rcfType) (n : nat) (normalize : bool) (R S T : nat) us vs,
    same_histories (F := F) (n := n) R S T us vs ->
    covariance_after normalize (@fc_new_cov F n) R S T vs =
    lo_dense (DiagOp (covariance_after normalize (diagkron_new_cov_sparse F n) R S T us)).
Proof. by move=> F n nz R S T us vs; exact: history_diag. Qed.
Print Assumptions C118_history.

(** The update: after any history, with the inverses of the dense layer's input factor up to date,
    both layers get the same dampings, and for every registered power (the inverse in particular)
    the product of the embedding layer's block with a sparse gradient is the product of the dense
    layer's block with the same gradient made dense. *)
Theorem C118_same_update :
  forall (F : rcfType) (eigh : forall n, 'M[F]_n -> 'rV[F]_n * 'M[F]_n) (pow : F -> F -> F)
         (threshold : nat) (clip : F) (meth : posdef_inv_method) (m n : nat)
         (normalize : bool) (R S T : nat) us vs (regs : seq (registration F)) (damp : nat -> F)
         (inputs : dense F m) (id : nat) (e renorm : F) (served : linop F n) (G : 'M[F]_n),
    eigh_contract eigh -> power_laws pow -> clip <= 0 ->
    same_histories (F := F) (n := m) R S T us vs ->
    List.Forall (fun u => 0 <= u.2.1 /\ 0 <= u.2.2) vs ->
    let C := covariance_after normalize (@fc_new_cov F m) R S T vs in
    let d := covariance_after normalize (diagkron_new_cov_sparse F m) R S T us in
    up_to_date eigh pow threshold clip meth regs damp C inputs ->
    0 < damp id -> e = 1 \/ List.In (RegMatpower e id) regs ->
    (forall pt power (output_cov : linop F n) damping replications,
       setup_damping pow pt power (DiagOp d) output_cov damping replications =
       setup_damping pow pt power (FullMatrix C) output_cov damping replications) /\
    (exists L, get_matpower inputs damp e id = Ok L /\
       (forall V : 'M[F]_(m, n),
          multiply_factored_matrix (m := m) (has_bias := false) (diag_get_matpower pow d e (damp id)) served V
            (pow renorm e) false false =
          multiply_factored_matrix (m := m) (has_bias := false) L served V (pow renorm e) false false) /\
       forall s : slices F m n, exists out,
         multiply_factored_matrix_sparse (diag_get_matpower pow d e (damp id)) (FullMatrix G) s
           (pow renorm e) false false = Ok out /\
         densify out =
         multiply_factored_matrix (m := m) (has_bias := false) L (FullMatrix G) (densify s)
           (pow renorm e) false false).
Proof.
move=> F eigh pow th clip meth m n nz R S T us vs regs damp sA id e rn r G he hp hc hh hw C d hu hd hr.
have hC : C = diag_mx d by exact: history_diag.
have hpsd : psd C by apply: history_psd => // l; exact: fc_psd.
rewrite hC in hu hpsd *; split; first by move=> *; exact: damping_ext.
exists (FullMatrix (lo_dense (diag_get_matpower pow d e (damp id)))); split.
  exact: (dense_serves_diag he hp hc hu hpsd hd hr).
split; first by move=> V; exact: factored_ext.
move=> s; have [out [h1 h2]] := sparse_agrees (\row_j pow (d 0 j + damp id) e) G s (pow rn e) false.
by exists out; split => //; rewrite h2; exact: factored_ext.
Qed.
Print Assumptions C118_same_update.

(** What is refused: indices with the full input factor, for one use or several, and indices of rank
    two (several indices per example) in a layer with one use; and the batch size is the number of
    examples, in each accepted layout. *)
Theorem C118_refused :
  forall (F : rcfType) (n : nat) (ids1 : seq nat) (ids2 : seq (seq nat)) (multi : bool),
    [/\ input_statistic false multi (Ids1 F n ids1) = Raise ValueError,
        input_statistic false multi (Ids2 F n ids2) = Raise ValueError
      & input_statistic true false (Ids2 F n ids2) = Raise ValueError].
Proof. by move=> F n ids1 ids2 []. Qed.
Print Assumptions C118_refused.
Theorem C118_batch_size :
  forall (F : rcfType) (n uses batch : nat) (ids : seq (seq nat)), (0 < uses)%N ->
    size ids = uses -> (forall u, List.In u ids -> size u = batch) ->
    [/\ partial_batch_size (Some uses) (Ids2 F n ids) = batch,
        partial_batch_size (Some uses) (Ids1 F n (flatten ids)) = batch
      & forall u, List.In u ids -> partial_batch_size None (Ids1 F n u) = batch].
Proof.
move=> F n uses batch ids u0 hs hb; split => //=.
- by case: ids hs hb => [e|u ids] /=; [rewrite -e in u0 | move=> _; apply; left].
- by rewrite (size_flatten_eq hb) hs mulKn // mulnC.
Qed.
Print Assumptions C118_batch_size.

(** The diagonal input factor is not exact for a layer with a bias: the full statistic then has the
    frequencies of the indices in the row and column of the bias. *)
Theorem C118_bias_not_exact :
  forall (F : rcfType) (n : nat) (ids : seq nat) (rows : seq 'rV[F]_n) (i : 'I_n) (d : 'rV[F]_(n + 1)),
    one_hots ids rows -> nat_of_ord i \in ids ->
    new_cov_from_tensor_bias (Ids1 F n ids) = Ok d -> fc_new_cov_bias rows <> diag_mx d.
Proof.
move=> F n ids rows i d ho hi _ /matrixP /(_ (lshift 1 i) (rshift n 0)).
rewrite (bias_not_diagonal ho hi) mxE => h.
have := frequency_pos F hi; rewrite h.
by rewrite eq_lrshift mulr0n ltxx.
Qed.
Print Assumptions C118_bias_not_exact.
(** Nor is a diagonal factor exact for the outputs: two gradients suffice. *)
Theorem C118_output_not_exact : forall F : rcfType,
  exists grads : seq 'rV[F]_2, fc_new_cov grads <> diag_mx (diagkron_new_cov grads).
Proof.
move=> F; exists [:: const_mx 1]; rewrite /fc_new_cov compute_covE /avg /= big_seq1 invr1 scale1r.
by move=> /matrixP /(_ 0 1); rewrite !mxE big_ord1 !mxE mulr0n mulr1 => /eqP; rewrite oner_eq0.
Qed.
Print Assumptions C118_output_not_exact.

(** A vocabulary of three and a batch of four ids, one of them twice and one out of range. *)
Example C118_instance : forall F : rcfType,
  exists us vs (inputs : dense F 3),
    same_histories (F := F) (n := 3) 1 1 1 us vs /\
    List.Forall (fun u => 0 <= u.2.1 /\ 0 <= u.2.2) vs /\
    up_to_date (@an_eigh F) (@a_pow F) 4 0 CholeskyMethod [:: RegMatpower (-1) 0] (fun=> 2^-1)
      (covariance_after false (@fc_new_cov F 3) 1 1 1 vs) inputs /\
    covariance_after false (@fc_new_cov F 3) 1 1 1 vs 0 0 = 2 / 4 /\
    covariance_after false (@fc_new_cov F 3) 1 1 1 vs 1 1 = 0.
Proof.
move=> F.
pose us : seq ((nat -> nat -> nat -> seq nat) * (F * F)) := [:: (fun _ _ _ => [:: 0; 2; 0; 7]%N, (0, 1))].
pose vs : seq ((nat -> nat -> nat -> seq 'rV[F]_3) * (F * F)) :=
  [:: (fun _ _ _ => [seq one_hot F 3 i | i <- [:: 0; 2; 0; 7]%N], (0, 1))].
have h : same_histories 1 1 1 us vs by constructor => //; split => // *; exact: one_hots_ok.
have [s hs] := up_to_date_exists (@an_eigh F) (@a_pow F) 4 0 CholeskyMethod [:: RegMatpower (-1) 0]
  (fun=> 2^-1) (covariance_after false (@fc_new_cov F 3) 1 1 1 vs).
exists us, vs, s; split => //; split; first by constructor => //; split; rewrite ?ler01.
have v (i : 'I_3) : covariance_after false (@fc_new_cov F 3) 1 1 1 vs i i = frequency F [:: 0; 2; 0; 7]%N i.
  rewrite (history_diag _ h) mxE eqxx mulr1n /covariance_after /mav_value /= scaler0 add0r scale1r.
  rewrite /compute_total_new_cov !big_ord1 !invr1 !scale1r; exact: stat_frequency.
by split => //; rewrite !v /frequency /= ?mul0r.
Qed.
