(** Vocabulary of Diff/Props.v: computation graphs one can differentiate, and derivatives of their
    nodes in the sense of analysis. *)
From Coq Require Import List Arith Bool Reals.
From Coquelicot Require Import Coquelicot.
From Verif.Base Require Import Py.
From Verif.Curv Require Import Model Spec.
From Verif.Diff Require Import Model.
Import ListNotations.
Open Scope list_scope.
Open Scope R_scope.

Section Spec.
Variable O : ops.
Notation graph := (graph O).

(** ** Graphs *)
Definition args_of (nd : node O) : list nat :=
  match nd with
  | Leaf _ | Const _ | Nan => []
  | Apply _ args => args
  | Add a b | Mul a b => [a; b]
  end.
(** Nodes come after their arguments, and operations have as many as they need. *)
Fixpoint wf (G : graph) : Prop :=
  match G with
  | [] => True
  | nd :: G' =>
      (forall a, In a (args_of nd) -> (a < length G')%nat) /\
      (forall p args, nd = Apply p args -> length args = arity O p) /\ wf G'
  end.
(** What a user has built: no placeholders of fwd_gradients. *)
Definition user_graph (G : graph) : Prop := wf G /\ forall i, node_at O G i <> Some Nan.
Definition nodes_of (G : graph) (l : list nat) : Prop := forall i, In i l -> (i < length G)%nat.

(** [y] is computed from [x], other than through a stopped node. *)
Inductive uses (stops : list nat) (G : graph) : nat -> nat -> Prop :=
| uses_self x : uses stops G x x
| uses_arg y nd a x : node_at O G y = Some nd -> ~ In y stops -> In a (args_of nd) ->
    uses stops G a x -> uses stops G y x.

(** ** Values *)
(** The graph if [e i] is added to the value of each node [i], while the nodes of [stops] are held
    at the values [base] (before the addition). *)
Definition real_node (env : nat -> R) (x : nat -> R) (nd : node O) : R :=
  match nd with
  | Leaf k => env k
  | Const r => r
  | Nan => 0
  | Apply p args => ev O p (map x args)
  | Add a b => x a + x b
  | Mul a b => x a * x b
  end.
Fixpoint moved (env : nat -> R) (stops : list nat) (base e : nat -> R) (G : graph) (i : nat) : R :=
  match G with
  | [] => 0
  | nd :: G' =>
      if Nat.eqb i (length G')
      then (if mem i stops then base i else real_node env (moved env stops base e G') nd) + e i
      else moved env stops base e G' i
  end.
Definition no_move : nat -> R := fun _ => 0.
(** The ordinary values of the nodes. *)
Definition at_rest (env : nat -> R) (G : graph) : nat -> R := moved env [] no_move no_move G.

(** The values when every node [i] is moved by [e i], all dependencies followed, or only those
    that do not pass through [stops]. *)
Definition after (env : nat -> R) (stops : list nat) (G : graph) (e : nat -> R) (i : nat) : R :=
  moved env stops (at_rest env G) e G i.

(** Moving the nodes [xs] by the amounts [cs] (twice the same node: both amounts). *)
Definition along (xs : list nat) (cs : list R) : nat -> R :=
  fun i => rsum (map2 (fun x c => if Nat.eqb i x then c else 0) xs cs).

(** [D] is the derivative of [f] at [e] in the direction [v]. *)
Definition derivative (f : (nat -> R) -> R) (e v : nat -> R) (D : R) : Prop :=
  is_derive (fun t => f (fun i => e i + t * v i)) 0 D.

(** ** Operations *)
(** The gradient functions of [p] are right at the arguments [a]: the chain rule holds there along
    every curve. *)
Definition chain (p : prim O) (a : list R) : Prop :=
  forall (cs : list (R -> R)) (ds : list R),
    length cs = length ds -> map (fun c => c 0) cs = a ->
    Forall2 (fun c d => is_derive c 0 d) cs ds ->
    is_derive (fun t => ev O p (map (fun c => c t) cs)) 0
      (rsum (map2 (fun k d => ev O (dp O p k) a * d) (seq 0 (length ds)) ds)).
(** All operations of the graph can be differentiated where they are applied. *)
Definition differentiable_at (env : nat -> R) (G : graph) : Prop :=
  forall i p args, node_at O G i = Some (Apply p args) ->
    chain p (map (at_rest env G) args).
(** Gradient functions put operations with as many arguments into the graph. *)
Definition typed : Prop := forall p k, arity O (dp O p k) = arity O p.
(** Smooth operations: the chain rule holds for them and their derivatives everywhere, and the
    order of differentiation does not matter. *)
Definition smooth : Prop :=
  typed /\
  (forall p a, length a = arity O p -> chain p a) /\
  (forall p k l a, length a = arity O p ->
     ev O (dp O (dp O p k) l) a = ev O (dp O (dp O p l) k) a).

(** ** Results *)
(** The answer [r] of a gradient call stands for the number [D]; a missing gradient for zero. *)
Definition stands_for (env : nat -> R) (G : graph) (r : option nat) (D : R) : Prop :=
  match r with Some c => value O env G c = Some D | None => D = 0 end.
End Spec.
Arguments along xs cs i : simpl never.
