(** Model of utils.SubGraph  (kfac/python/ops/utils.py:358-437). *)
From Coq Require Import List Arith Bool.
From Verif.Base Require Import Py.
Import ListNotations.

(** The TensorFlow graph, as far as SubGraph looks at it: tensors and operations are
    numbered; each tensor has a producer [g_op], each operation a list of input
    tensors, a list of output tensors, and a type.  Only whether the type is one of
    the four relay types (utils.py:409-410) matters, hence [g_relay]. *)
Record graph := mkG {
  g_ntensors : nat;
  g_nops : nat;
  g_op : nat -> nat;
  g_inputs : nat -> list nat;
  g_outputs : nat -> list nat;
  g_relay : nat -> bool }.

(** A node handed to SubGraph: a tensor, an operation, or some other object (which is
    recorded but not expanded, utils.py:380-383). *)
Inductive node := Tn (t : nat) | Opn (o : nat) | Other (x : nat).

Definition node_eqb (a b : node) : bool :=
  match a, b with
  | Tn x, Tn y => Nat.eqb x y
  | Opn x, Opn y => Nat.eqb x y
  | Other x, Other y => Nat.eqb x y
  | _, _ => false
  end.
Definition in_members (x : node) (m : list node) : bool := existsb (node_eqb x) m.

(** utils.py:380-383: the group pushed for a newly added node, if any. *)
Definition group_of (g : graph) (x : node) : option (list node) :=
  match x with
  | Tn t => Some [Opn (g_op g t)]
  | Opn o => Some (map Tn (g_inputs g o))
  | Other _ => None
  end.

(** utils.py:375-383: the inner loop over one popped group. *)
Fixpoint visit (g : graph) (nodes : list node) (members : list node)
    (stack : list (list node)) : list node * list (list node) :=
  match nodes with
  | [] => (members, stack)
  | x :: rest =>
      if in_members x members then visit g rest members stack
      else visit g rest (x :: members)
             (match group_of g x with Some gr => gr :: stack | None => stack end)
  end.

(** utils.py:370-383: the outer loop.  [None] means the fuel ran out. *)
Fixpoint iter_add (fuel : nat) (g : graph) (stack : list (list node))
    (members : list node) : option (list node) :=
  match stack with
  | [] => Some members
  | nodes :: stack' =>
      match fuel with
      | 0 => None
      | S f => let (m, st) := visit g nodes members stack' in iter_add f g st m
      end
  end.

(** Upper bound on the number of iterations of the outer loop. *)
Definition loop_bound (g : graph) : nat := S (g_ntensors g + g_nops g).

(** utils.py:362-367.  [outputs[0]] on an empty list is an IndexError. *)
Definition subgraph (g : graph) (outputs : list node) : res (list node) :=
  match iter_add (loop_bound g) g [outputs] [] with
  | None => Raise RuntimeError   (* never: see loop_bound *)
  | Some m => match outputs with [] => Raise IndexError | _ => Ok m end
  end.

(** utils.py:385-387 *)
Definition is_member (m : list node) (x : node) : bool := in_members x m.

(** utils.py:431-437 *)
Definition filter_list (m : list node) (l : list node) : list node :=
  filter (is_member m) l.

(** [set(tensor.consumers())] *)
Definition consumers (g : graph) (t : nat) : list nat :=
  filter (fun o => existsb (Nat.eqb t) (g_inputs g o)) (seq 0 (g_nops g)).

(** utils.py:401-414: consumers of a tensor, looking through relay ops.  The set of
    consumers is a list that may contain repetitions; [RecursionError] stands for
    the exception of the same name.  Simplification: the recursion limit is the number of
    tensors instead of Python's configured limit. *)
Fixpoint add_consumers (fuel : nat) (g : graph) (t : nat) : res (list nat) :=
  match fuel with
  | 0 => Raise RecursionError
  | S f =>
      (fix over_consumers (os : list nat) : res (list nat) :=
         match os with
         | [] => Ok []
         | o :: os' =>
             do here <-
               (if g_relay g o
                then (fix over_outputs (ts : list nat) : res (list nat) :=
                        match ts with
                        | [] => Ok []
                        | t' :: ts' => do a <- add_consumers f g t';
                                       do b <- over_outputs ts'; Ok (a ++ b)
                        end) (g_outputs g o)
                else Ok [o]);
             do rest <- over_consumers os';
             Ok (here ++ rest)
         end) (consumers g t)
  end.

(** The three kinds of variable (utils.py:416-428): a resource variable looked up
    through function captures (several handles) or by its own handle; a reference
    variable, by its value tensor; anything else is rejected. *)
Inductive variable :=
| Captured (handles : list nat)
| Resource (handle : nat)
| Reference (value : nat)
| NotAVariable.

Definition start_tensors (v : variable) : res (list nat) :=
  match v with
  | Captured hs => Ok hs
  | Resource h => Ok [h]
  | Reference t => Ok [t]
  | NotAVariable => Raise ValueError
  end.

Fixpoint collect (g : graph) (ts : list nat) : res (list nat) :=
  match ts with
  | [] => Ok []
  | t :: ts' => do a <- add_consumers (g_ntensors g) g t;
                do b <- collect g ts'; Ok (a ++ b)
  end.

(** utils.py:389-429.  [set] removes repetitions. *)
Definition variable_uses (g : graph) (m : list node) (v : variable) : res nat :=
  do ts <- start_tensors v;
  do cs <- collect g ts;
  Ok (length (filter (fun o => is_member m (Opn o)) (nodup Nat.eq_dec cs))).
