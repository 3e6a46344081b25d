(** Vocabulary for the SubGraph properties. *)
From Coq Require Import List Arith Relations.
From Verif.Graph Require Import Model.
Import ListNotations.

(** Node identifiers mentioned by a graph exist. *)
Definition closed_graph (g : graph) : Prop :=
  (forall t, t < g_ntensors g -> g_op g t < g_nops g) /\
  (forall o t, o < g_nops g -> In t (g_inputs g o) -> t < g_ntensors g) /\
  (forall o t, o < g_nops g -> In t (g_outputs g o) -> t < g_ntensors g).

Definition in_graph (g : graph) (x : node) : Prop :=
  match x with
  | Tn t => t < g_ntensors g
  | Opn o => o < g_nops g
  | Other _ => True
  end.

(** [depends g x y]: x is computed directly from y. *)
Inductive depends (g : graph) : node -> node -> Prop :=
| dep_producer t : depends g (Tn t) (Opn (g_op g t))
| dep_input o t : In t (g_inputs g o) -> depends g (Opn o) (Tn t).

(** Ancestors: reflexive transitive dependency of some output. *)
Definition ancestor (g : graph) (outputs : list node) (x : node) : Prop :=
  exists y, In y outputs /\ clos_refl_trans _ (depends g) y x.

(** The value of [t] reappears unchanged as [t'] behind one relay op. *)
Definition relayed (g : graph) (t t' : nat) : Prop :=
  exists o, o < g_nops g /\ In t (g_inputs g o) /\ g_relay g o = true /\
            In t' (g_outputs g o).
Definition relays_acyclic (g : graph) : Prop :=
  forall t, ~ clos_trans _ (relayed g) t t.

(** [o] really consumes [t]: it is not a relay and reads [t] itself or a relayed copy. *)
Definition real_consumer (g : graph) (t o : nat) : Prop :=
  o < g_nops g /\ g_relay g o = false /\
  exists t', clos_refl_trans _ (relayed g) t t' /\ In t' (g_inputs g o).
