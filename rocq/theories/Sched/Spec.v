(** Vocabulary for the scheduling properties.  Nothing here mentions the model. *)
From Coq Require Import List Arith Permutation Reals.
From Verif.Base Require Import Py ListFacts.
Import ListNotations.

(** [j] is one of the [b] consecutive slots [t*b, ..., t*b + b - 1] taken modulo
    [n]: "round robin with batches of [b]". *)
Definition in_batch (n b t j : nat) : Prop :=
  exists s, s < b /\ j = (t * b + s) mod n.

(** [x] and [y] differ by at most [d]. *)
Definition within (d x y : nat) : Prop := x <= y + d /\ y <= x + d.

(** Number of times [t] in the window [t0, t0+k) at which slot [j] of the output
    list [out t] shows an executed item. *)
Definition runs {A} (out : nat -> list (option A)) (j t0 k : nat) : nat :=
  countb (fun t => match nth_error (out t) j with
                   | Some (Some _) => true | _ => false end) (seq t0 k).

(** [placed ds old new]: the list [new] of op builders is [old], in the same order,
    each builder running in the scope of the device [ds[i mod len ds]] whatever
    the device scope of the caller. *)
Definition placed {dev B} (ds : list dev) (old new : list (option dev -> B)) : Prop :=
  length new = length old /\
  forall i t, nth_error old i = Some t ->
    exists d t', nth_error ds (i mod length ds) = Some d /\
      nth_error new i = Some t' /\ forall scope, t' scope = t (Some d).

(** Number of the [n] items that round robin over [k] places gives to place [j]. *)
Definition load (n k j : nat) : nat := countb (fun i => Nat.eqb (i mod k) j) (seq 0 n).

(** Shapes of a structure of tensors (a tensor is its list of entries), and one
    entry of it. *)
Definition shapes (x : list (list R)) : list nat := map (@length R) x.
Definition entry (x : list (list R)) (j i : nat) : option R :=
  match nth_error x j with Some t => nth_error t i | None => None end.

(** Position of [x] in increasing order of [key]: how many have a smaller key. *)
Definition rank_by {A} (key : A -> nat) (l : list A) (x : A) : nat :=
  countb (fun y => Nat.ltb (key y) (key x)) l.
