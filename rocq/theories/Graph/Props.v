(** Property theorems C16 and C17. *)
From Coq Require Import List Arith Relations Lia.
From Verif.Base Require Import Py.
From Verif.Graph Require Import Model Spec Proofs.
Import ListNotations.

(** ** C16: construction terminates on every finite graph, cyclic or not, and the
    members are exactly the ancestors of the outputs. *)
Theorem C16_members_are_ancestors :
  forall (g : graph) (outputs : list node),
    closed_graph g -> outputs <> [] -> (forall x, In x outputs -> in_graph g x) ->
    exists m, subgraph g outputs = Ok m /\
      forall x, is_member m x = true <-> ancestor g outputs x.
Proof. exact subgraph_members. Qed.
Print Assumptions C16_members_are_ancestors.

(** A cyclic graph: tensors 0 and 1 produced by ops 0 and 1, each the other's input;
    op 2 (with output 2) is outside. *)
Definition example_graph : graph :=
  mkG 3 3 (fun t => t)
      (fun o => match o with 0 => [1] | 1 => [0] | _ => [0; 0] end)
      (fun o => [o]) (fun o => Nat.eqb o 1).
Example C16_example :
  closed_graph example_graph /\
  exists m, subgraph example_graph [Tn 0] = Ok m /\
            is_member m (Opn 1) = true /\ is_member m (Opn 2) = false.
Proof.
  split.
  - unfold closed_graph. cbn. repeat split.
    + intros t H; exact H.
    + intros [|[|o]] t H; cbn; intros Hi; lia.
    + intros o t H [<-|[]]; exact H.
  - eexists. split; [reflexivity|]. split; reflexivity.
Qed.

(** ** C17 *)
Theorem C17_variable_uses_counts_real_consumers :
  forall (g : graph) (m : list node) (v : variable) (ts : list nat),
    closed_graph g -> relays_acyclic g -> start_tensors v = Ok ts ->
    (forall t, In t ts -> t < g_ntensors g) ->
    exists ops, NoDup ops /\
      (forall o, In o ops <->
         is_member m (Opn o) = true /\ exists t, In t ts /\ real_consumer g t o) /\
      variable_uses g m v = Ok (length ops).
Proof. exact variable_uses_spec. Qed.
Print Assumptions C17_variable_uses_counts_real_consumers.

Theorem C17_not_a_variable :
  forall (g : graph) (m : list node), variable_uses g m NotAVariable = Raise ValueError.
Proof. exact variable_uses_rejects. Qed.
Print Assumptions C17_not_a_variable.

(** A diamond: variable 0 read by relays 1 and 2, both read by op 3, which is
    counted once. *)
Definition diamond : graph :=
  mkG 4 4 (fun t => t)
      (fun o => match o with 1 => [0] | 2 => [0] | 3 => [1; 2] | _ => [] end)
      (fun o => [o]) (fun o => Nat.eqb o 1 || Nat.eqb o 2)%bool.
Example C17_example :
  closed_graph diamond /\ relays_acyclic diamond /\
  exists m, subgraph diamond [Tn 3] = Ok m /\ variable_uses diamond m (Resource 0) = Ok 1.
Proof.
  split; [|split].
  - unfold closed_graph. cbn. repeat split.
    + intros t H; exact H.
    + intros [|[|[|[|o]]]] t H; cbn; intros Hi; lia.
    + intros o t H [<-|[]]; exact H.
  - assert (L : forall t t', clos_trans _ (relayed diamond) t t' -> t < t').
    { induction 1 as [t t' (o & Ho & Hi & Hr & Ht)|t u t' _ A _ B]; [|lia].
      cbn in Ht. destruct Ht as [<-|[]].
      destruct o as [|[|[|[|o]]]]; cbn in Hi, Hr; try discriminate; intuition. }
    intros t H. apply L in H. lia.
  - eexists. split; reflexivity.
Qed.
