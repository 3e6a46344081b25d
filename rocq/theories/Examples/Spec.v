(** Vocabulary of C111 - C116. *)
From Coq Require Import String List Arith ZArith Bool Reals.
From Flocq Require Import Core.
From Verif.Base Require Import Py.
From Verif.Examples Require Import Model.
Import ListNotations.
Open Scope list_scope.
Open Scope nat_scope.

(** Number of workers among 0 .. n-1 that satisfy [p]. *)
Definition workers (p : Z -> bool) (n : nat) : nat :=
  length (filter (fun id => p (Z.of_nat id)) (seq 0 n)).
Definition one_if (b : bool) : nat := if b then 1 else 0.

(** A step in the right order: all statistics, then inverses, then the parameters, once. *)
Definition in_order (num_cov num_inv : nat) (l : list ev) : Prop :=
  exists is, l = map Cov (seq 0 num_cov) ++ map Inv is ++ [Apply] /\ forall k, In k is -> k < num_inv.
(** When step [t] applies its update, inverse [k] was computed less than [d] steps ago. *)
Definition fresh (step : nat -> list ev) (d t k : nat) : Prop :=
  exists t', t' <= t /\ t < t' + d /\ In (Inv k) (step t').
Definition inverses_in (l : list ev) : nat :=
  length (filter (fun e => match e with Inv _ => true | _ => false end) l).

Open Scope R_scope.
(** The number [k]/[last] of the way from [a] to [b], on a logarithmic scale. *)
Definition geometric (a b : R) (k last : nat) : R := a * Rpower (b / a) (INR k / INR last).

(** The documented settings. *)
Open Scope string_scope.
Definition documented (f : flags) : Prop :=
  (f_optimizer f = "kfac" \/ f_optimizer f = "adam") /\
  (f_lrmu f = "on" \/ f_lrmu f = "only_lr" \/ f_lrmu f = "off").
Close Scope string_scope.

(** Each example of the pass [l] ends up in exactly one of the lists of [parts], in order, and they are
    equally long. *)
Definition split_evenly {X} (num : nat) (l : list X) (parts : list (list X)) : Prop :=
  length parts = num /\ concat parts = l /\
  forall p q, In p parts -> In q parts -> length p = length q.
