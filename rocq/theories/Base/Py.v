(** Common vocabulary for the shallow model: Python exceptions as values and
    the few built-in Python list operations that the code relies on. *)
From Coq Require Import List Arith Lia Bool.
Import ListNotations.

(** The exception classes that the modelled code raises (explicitly, or through
    a failing assert / dict lookup / unpacking). *)
Inductive exn : Type :=
| ValueError
| KeyError
| TypeError
| AttributeError
| AssertionError
| IndexError
| NotImplementedErr
| RuntimeError
| RecursionError
| ZeroDivisionError
| UnboundLocalError
| InvalidArgumentError         (* tf.errors.InvalidArgumentError, at run time *)
| AmbiguousRegistrationError. (* tensormatch/graph_search.py:56 *)

(** Result of a Python call: a value, or an exception that propagates. *)
Inductive res (A : Type) : Type :=
| Ok (a : A)
| Raise (e : exn).
Arguments Ok {A} a.
Arguments Raise {A} e.

Definition bind {A B : Type} (r : res A) (f : A -> res B) : res B :=
  match r with Ok a => f a | Raise e => Raise e end.

Notation "'do' x <- r ; k" := (bind r (fun x => k))
  (at level 200, x pattern, r at level 100, k at level 200).

Definition is_ok {A} (r : res A) : bool :=
  match r with Ok _ => true | Raise _ => false end.

(** Python's [zip]: stops at the shorter list. *)
Fixpoint zip {A B : Type} (l : list A) (m : list B) : list (A * B) :=
  match l, m with
  | a :: l', b :: m' => (a, b) :: zip l' m'
  | _, _ => []
  end.

(** [zip(l, itertools.cycle(full))]: [cur] is the unconsumed tail of the current
    pass over [full].  [itertools.cycle] of an empty iterable stops at once. *)
Fixpoint zip_cycle {A B : Type} (full cur : list B) (l : list A) : list (A * B) :=
  match l with
  | [] => []
  | a :: l' =>
      match cur with
      | b :: cur' => (a, b) :: zip_cycle full cur' l'
      | [] => match full with
              | b :: full' => (a, b) :: zip_cycle full full' l'
              | [] => []
              end
      end
  end.

(** [zip] with a starred argument on a list of pairs, as used by [xs, ys = zip( *l )]: unpacking the
    empty list raises ValueError. *)
Definition unzip_star {A B : Type} (l : list (A * B)) : res (list A * list B) :=
  match l with
  | [] => Raise ValueError
  | _ => Ok (map fst l, map snd l)
  end.

(** [enumerate(l)] starting at [i]. *)
Fixpoint enumerate_from {A : Type} (i : nat) (l : list A) : list (nat * A) :=
  match l with
  | [] => []
  | a :: l' => (i, a) :: enumerate_from (S i) l'
  end.
Definition enumerate {A : Type} (l : list A) : list (nat * A) := enumerate_from 0 l.
