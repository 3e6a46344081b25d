(** Property theorems C120 (the part about the curvature estimates): how they follow the
    coefficients of the registered losses. *)
From Coq Require Import List Arith Bool Reals Lra Lia.
From Verif.Base Require Import Py.
From Verif.Curv Require Import Model VecProofs LossProofs UnitsSpec UnitsProofs.
Import ListNotations.
Open Scope list_scope.
Open Scope R_scope.

(** With [k] times the coefficients, the gradients whose products the factors average are
    [sqrt k] times as large, in the modes "gradients", "curvature_prop" and "exact" (and in
    the GGN variants), for all losses, samples and signs.  So the averages are [k] times as
    large. *)
Theorem C120_estimates_partial : forall k c kind g signs wrt ls,
  0 < k ->
  grads_gradients (units_computer k c) g = res_map (tscale (sqrt k)) (grads_gradients c g) /\
  grads_curvature_prop kind (units_computer k c) signs
    = res_map (tscale (sqrt k)) (grads_curvature_prop kind c signs) /\
  grads_exact kind wrt (map (fun p => ((fst (fst p), k * snd (fst p)), snd p)) ls)
    = res_map (map (tscale (sqrt k))) (grads_exact kind wrt ls).
Proof.
  intros k c kind g signs wrt ls K. split; [exact (units_gradients k K c g)|].
  split; [exact (units_curvature_prop k K kind c signs)|exact (units_exact k K kind wrt ls)].
Qed.
Print Assumptions C120_estimates_partial.

(** The exact products that the quadratic model uses: [k] times the matrix, [sqrt k] times
    its factor. *)
Theorem C120_products : forall k c kind v,
  0 < k ->
  multiply_curv kind (units_computer k c) v = res_map (tscale k) (multiply_curv kind c v) /\
  multiply_curv_factor_transpose kind (units_computer k c) v
    = res_map (map (lscale (sqrt k))) (multiply_curv_factor_transpose kind c v).
Proof.
  intros k c kind v K. split; [exact (units_multiply k K kind c v)|exact (units_factor_transpose k K kind c v)].
Qed.
Print Assumptions C120_products.

(** In the mode "empirical" the gradients are [k] times as large, so the averages of their
    products are k^2 times as large and the rest of the optimizer, whose damping is [k] times
    as large, does not see the same curvature. *)
Theorem C120_empirical_refuted :
  (forall k c g, grads_empirical (units_computer k c) g = res_map (tscale k) (grads_empirical c g)) /\
  exists c g t t',
    grads_empirical c g = Ok t /\ grads_empirical (units_computer 4 c) g = Ok t' /\
    tdot t t = 1 /\ tdot t' t' = 4 * 4 /\ tdot t' t' <> 4 * tdot t t.
Proof.
  split; [exact units_empirical|].
  exists (mkComp [(NormalMean 1 [[0]] 1, 1)] [1%nat] [[[ [[1]] ]]]), [V1 [[1]]].
  eexists. eexists. split; [reflexivity|]. split; [reflexivity|].
  unfold tdot, dot, rsum, map2, tadd, radd, map2, tscale, rscale. cbn.
  unfold map2. cbn. repeat split; lra.
Qed.
Print Assumptions C120_empirical_refuted.

(** Two losses with coefficients 1 and 4 on one weight: the sampled gradients are not zero. *)
Example C120_estimates_instance :
  exists c g t, grads_gradients c g = Ok t /\ tdot t t = 9 /\
    grads_gradients (units_computer 4 c) g = Ok (tscale 2 t).
Proof.
  exists (mkComp [(NormalMean 1 [[0]] 1, 1); (MultiBernoulli 1 [[0]], 4)] [1%nat] [[[ [[1]] ]]; [[ [[1]] ]]]),
         [V1 [[1]]; V1 [[1]]].
  assert (S4 : sqrt 4 = 2) by (replace 4 with (2 * 2) by ring; apply sqrt_square; lra).
  eexists. split; [reflexivity|]. split.
  - unfold tdot, dot, rsum, map2, tadd, radd, map2, tscale, rscale. cbn. unfold map2. cbn.
    rewrite sqrt_1, S4. ring.
  - rewrite units_gradients by lra. rewrite S4. reflexivity.
Qed.
