(** Model of the derivatives that kfac/python/ops/curvature_matrix_vector_products.py and
    utils.fwd_gradients (kfac/python/ops/utils.py) build with tf.gradients: computation graphs, the
    nodes that reverse-mode differentiation adds to them, and what the nodes evaluate to. *)
From Coq Require Import List Arith Bool Reals.
From Verif.Base Require Import Py.
Import ListNotations.
Open Scope list_scope.
Open Scope R_scope.

(** The operations of TensorFlow that have a gradient function: an operation of [arity] arguments
    with its value, and for each argument the operation, on the same arguments, that its gradient
    function puts into the graph.  Which operations there are is arbitrary.
    Simplification: every tensor has one entry (a tensor operation is the operations that compute
    its entries), and gradients are dense: the conversion of tf.IndexedSlices (utils.py:507-511) is
    modelled in C60. *)
Record ops := mkOps {
  prim : Type;
  arity : prim -> nat;
  ev : prim -> list R -> R;
  dp : prim -> nat -> prim }.

Section Graphs.
Variable O : ops.

(** Nodes name their arguments by the numbers of earlier nodes.  [Leaf]: a variable or a fed
    tensor; [Nan]: [tf.zeros_like(y) + float("nan")] (utils.py:501), which has no gradient. *)
Inductive node :=
| Leaf (k : nat) | Const (r : R) | Nan
| Apply (p : prim O) (args : list nat) | Add (a b : nat) | Mul (a b : nat).
(** Newest node first: node number [i] is the one with [i] nodes behind it. *)
Definition graph := list node.

Fixpoint node_at (G : graph) (i : nat) : option node :=
  match G with
  | [] => None
  | nd :: G' => if Nat.eqb i (length G') then Some nd else node_at G' i
  end.

(** Evaluation in floating point, where NaN ([None]) spoils whatever is computed from it, a
    product with zero too.  Simplification: no rounding, and no NaN from other sources. *)
Fixpoint all_some {A} (l : list (option A)) : option (list A) :=
  match l with
  | [] => Some []
  | None :: _ => None
  | Some x :: l' => match all_some l' with Some xs => Some (x :: xs) | None => None end
  end.
Definition strict2 (f : R -> R -> R) (x y : option R) : option R :=
  match x, y with Some x, Some y => Some (f x y) | _, _ => None end.
Definition node_value (env : nat -> R) (x : nat -> option R) (nd : node) : option R :=
  match nd with
  | Leaf k => Some (env k)
  | Const r => Some r
  | Nan => None
  | Apply p args => match all_some (map x args) with Some l => Some (ev O p l) | None => None end
  | Add a b => strict2 Rplus (x a) (x b)
  | Mul a b => strict2 Rmult (x a) (x b)
  end.
Fixpoint value (env : nat -> R) (G : graph) (i : nat) : option R :=
  match G with
  | [] => None
  | nd :: G' => if Nat.eqb i (length G') then node_value env (value env G') nd else value env G' i
  end.

(* ------------------------------------------------------------------------ *)
(** * tf.gradients(ys, xs, grad_ys, stop_gradients) *)

(** The graph built so far, and for each node the node of the gradient accumulated for it. *)
Definition state : Type := graph * (nat -> option nat).
Definition upd {A} (f : nat -> A) (i : nat) (x : A) : nat -> A := fun j => if Nat.eqb j i then x else f j.
Definition mem (i : nat) (l : list nat) : bool := existsb (Nat.eqb i) l.

(** One more gradient [c] for node [a].  (TensorFlow collects them and adds them up at once.) *)
Definition contribute (st : state) (a c : nat) : state :=
  let (G, acc) := st in
  match acc a with
  | None => (G, upd acc a (Some c))
  | Some b => (Add b c :: G, upd acc a (Some (length G)))
  end.

(** The gradient functions: what a node with gradient [gi] contributes to its arguments. *)
Fixpoint apply_back (p : prim O) (all : list nat) (gi k : nat) (args : list nat) (st : state) : state :=
  match args with
  | [] => st
  | a :: args' =>
      let (G, acc) := st in
      let G1 := Apply (dp O p k) all :: G in
      apply_back p all gi (S k) args' (contribute (Mul gi (length G) :: G1, acc) a (length G1))
  end.
Definition propagate (st : state) (gi : nat) (nd : node) : state :=
  match nd with
  | Leaf _ | Const _ | Nan => st
  | Add a b => contribute (contribute st a gi) b gi
  | Mul a b =>
      let (G, acc) := st in
      let st1 := contribute (Mul gi b :: G, acc) a (length G) in
      let (G1, acc1) := st1 in
      contribute (Mul gi a :: G1, acc1) b (length G1)
  | Apply p args => apply_back p args gi 0 args st
  end.

(** From the last node to the first; gradients do not flow through the nodes of [stops].
    Simplification: TensorFlow leaves out the nodes that no element of [xs] leads to, whose
    gradients nobody asks for. *)
Fixpoint back (stops : list nat) (i : nat) (st : state) : state :=
  match i with
  | 0%nat => st
  | S i' =>
      back stops i'
        (match snd st i' with
         | None => st
         | Some gi =>
             if mem i' stops then st
             else match node_at (fst st) i' with Some nd => propagate st gi nd | None => st end
         end)
  end.
Fixpoint seed (st : state) (l : list (nat * nat)) : state :=
  match l with
  | [] => st
  | (y, g) :: l' => seed (contribute st y g) l'
  end.

(** The result is [None] for an element of [xs] that no [y] depends on. *)
Definition gradients (G : graph) (ys xs gys stops : list nat) : graph * list (option nat) :=
  let st := back stops (length G) (seed (G, fun _ => None) (zip ys gys)) in
  (fst st, map (snd st) xs).

(* ------------------------------------------------------------------------ *)
(** * utils.py and curvature_matrix_vector_products.py *)

(** utils.py:512-514: zeros for the missing gradients. *)
Fixpoint zeros_for_none (G : graph) (l : list (option nat)) : graph * list nat :=
  match l with
  | [] => (G, [])
  | Some d :: l' => let (G', ds) := zeros_for_none G l' in (G', d :: ds)
  | None :: l' => let (G', ds) := zeros_for_none (Const 0 :: G) l' in (G', length G :: ds)
  end.

(** utils.py:485-517.  MirroredVariableWrapper (502-503) only makes the stopped variables
    hashable. *)
Definition fwd_gradients (G : graph) (ys xs grad_xs stops : list nat) : graph * list (option nat) :=
  let us := seq (length G) (length ys) in
  let (G1, dydxs) := gradients (repeat Nan (length ys) ++ G) ys xs us stops in
  let (G2, dydxs) := zeros_for_none G1 dydxs in
  gradients G2 dydxs us grad_xs [].

(** curvature_matrix_vector_products.py:100-108 *)
Definition multiply_jacobian (G : graph) (inputs wrt vecs : list nat) : graph * list (option nat) :=
  fwd_gradients G inputs wrt vecs wrt.
(** curvature_matrix_vector_products.py:110-120 *)
Definition multiply_jacobian_transpose (G : graph) (inputs wrt loss_vecs : list nat)
  : graph * list (option nat) :=
  gradients G inputs wrt loss_vecs wrt.
(** curvature_matrix_vector_products.py:187-196.  Without grad_ys the gradient of the loss is the
    constant 1; a missing gradient among the ys of the outer call is an AttributeError there. *)
Definition multiply_hessian (G : graph) (total_loss : nat) (wrt vecs : list nat)
  : res (graph * list (option nat)) :=
  let (G1, gs) := gradients (Const 1 :: G) [total_loss] wrt [length G] [] in
  match all_some gs with
  | None => Raise AttributeError
  | Some gs => Ok (gradients G1 gs wrt vecs [])
  end.
End Graphs.
Arguments Leaf {O} k.
Arguments Const {O} r.
Arguments Nan {O}.
Arguments Apply {O} p args.
Arguments Add {O} a b.
Arguments Mul {O} a b.
