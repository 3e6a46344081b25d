(** C129: is_replicated, on which the constructor of the replica_round_robin placement depends
    (placement.py:196), against the number of replicas. *)
From Coq Require Import List Arith Bool Lia.
From Verif.Base Require Import Py.
From Verif.Replica Require Import Model.
Import ListNotations.

(** In a replica context of a strategy, without TF-Replicator, the placement is accepted exactly
    if there are several replicas; without a strategy exactly if there is a TF-Replicator or a TPU
    context, so always if there are several replicas.  Missing: a strategy outside of a replica context, for which it is false (below). *)
Theorem C129_replicated_iff_replicas_partial : forall k,
  (replicator k = None -> (exists kind n, strategy k = Some (kind, n)) -> in_replica k = true ->
     (is_replicated k = true <-> 1 < get_num_replicas k)) /\
  (strategy k = None ->
     (is_replicated k = true <-> replicator k <> None \/ shards k <> None) /\
     (1 < get_num_replicas k -> is_replicated k = true)).
Proof.
  intros [[[kind n]|] ir rep sh]; cbn; split; intros H.
  - intros _ ->. subst rep. unfold is_replicated, replica_context, get_num_replicas; cbn. exact (Nat.ltb_lt 1 n).
  - discriminate.
  - intros (? & ? & [=]).
  - unfold is_replicated, is_tpu_replicated, replica_context, get_num_replicas; cbn.
    destruct rep as [m|], sh as [[|s]|]; cbn; split; try split; intros; try reflexivity; try lia; try discriminate;
      first [left; discriminate | right; discriminate | tauto].
Qed.
Print Assumptions C129_replicated_iff_replicas_partial.

(** Refuted: in the cross-replica context of a strategy there are several replicas and the
    placement is refused; in a TPU context with one shard there is one and it is accepted. *)
Theorem C129_replicated_iff_replicas_refuted :
  (exists k, 1 < get_num_replicas k /\ is_replicated k = false) /\
  (exists k, get_num_replicas k = 1 /\ is_replicated k = true).
Proof.
  split.
  - exists (mkRctx (Some (Mirrored, 2)) false None None). split; [cbn; lia|reflexivity].
  - exists (mkRctx None false None (Some 1)). split; reflexivity.
Qed.
Print Assumptions C129_replicated_iff_replicas_refuted.

Example C129_context_example :
  let k := mkRctx (Some (TPUStrategy, 2)) true None None in
  replicator k = None /\ (exists kind n, strategy k = Some (kind, n)) /\ in_replica k = true /\
  is_replicated k = true /\ get_num_replicas k = 2.
Proof. repeat split. now exists TPUStrategy, 2. Qed.
