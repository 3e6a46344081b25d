(** What the properties of the data readers speak about. *)
From Coq Require Import List Arith Permutation.
From Verif.Base Require Import Py.
From Verif.Data Require Import Model.
Import ListNotations.

(** A possible order of execution: every operation at most once, after everything it
    depends on. *)
Definition possible (k : nat) (l : list op) : Prop :=
  (forall o i, In o l -> op_index o = Some i -> i < k) /\
  forall l1 o l2, l = l1 ++ o :: l2 -> ~ In o l1 /\ forall p, requires k o p -> In p l1.
Definition apossible (k : nat) (l : list aop) : Prop :=
  (forall o i, In o l -> aop_index o = Some i -> i < k) /\
  forall l1 o l2, l = l1 ++ o :: l2 -> ~ In o l1 /\ forall p, arequires k o p -> In p l1.

(** A run that returns the new batch, and one that does not touch it. *)
Definition reads_batch (k : nat) (l : list op) : Prop := forall i, i < k -> In (Return i) l.
Definition only_looks (l : list op) : Prop := forall o, In o l -> exists i, o = ReadCached i.
Definition areads_batch (k : nat) (l : list aop) : Prop := forall i, i < k -> In (AReturn i) l.
Definition aonly_looks (l : list aop) : Prop := forall o, In o l -> exists i, o = AReadCached i.

Section Reader.
Context {row : Type}.

(** The storage has room for [max] rows of each of the [k] tensors. *)
Definition sized (k max : nat) (s : vars row) : Prop :=
  length (v_storage s) = k /\ forall d, In d (v_storage s) -> length d = max.
(** A data set of [k] tensors with at least [n] rows each. *)
Definition enough (k n : nat) (data : list (list row)) : Prop :=
  length data = k /\ forall d, In d data -> n <= length d.
(** The first [b] rows of every tensor. *)
Definition batch (b : nat) (data : list (list row)) : list (list row) := map (firstn b) data.

(** In a history of runs that either read a batch or only look: the batch that was last read. *)
Definition proper (k max : nat) (r : run row) : Prop :=
  possible k (r_ops r) /\ r_size r <= max /\ enough k max (r_data r) /\
  (reads_batch k (r_ops r) \/ only_looks (r_ops r)).
Inductive last_batch (k : nat) : list (run row) -> list (list row) -> list (list row) -> Prop :=
| lb_none x : last_batch k [] x x
| lb_read rs r x y : last_batch k rs x y -> reads_batch k (r_ops r) ->
    last_batch k (rs ++ [r]) x (batch (r_size r) (r_data r))
| lb_look rs r x y : last_batch k rs x y -> only_looks (r_ops r) -> last_batch k (rs ++ [r]) x y.

(** The rows of a data set at some positions. *)
Definition rows_at (d : list row) (is : list nat) (v : list row) : Prop :=
  Forall2 (fun i x => nth_error d i = Some x) is v.
End Reader.

Section Alt.
Context {row : Type}.
Variable data : list (list row).

(** The positions of the cached batch, and its rows in tensor [i]. *)
Definition positions (s : avars) : list nat := firstn (a_size s) (a_indices s).
Definition rows_of (is : list nat) (i : nat) (v : list row) : Prop :=
  exists d, nth_error data i = Some d /\ rows_at d is v.

(** All positions are positions of the data set. *)
Definition in_range (n : nat) (is : list nat) : Prop := forall i, In i is -> i < n.
Definition full (k n : nat) : Prop := length data = k /\ forall d, In d data -> length d = n.

Definition aproper (k n : nat) (r : arun) : Prop :=
  apossible k (ar_ops r) /\ ar_size r <= n /\ Permutation (ar_shuffled r) (seq 0 n) /\
  (areads_batch k (ar_ops r) \/ aonly_looks (ar_ops r)).
Inductive last_positions (k : nat) : list arun -> list nat -> list nat -> Prop :=
| lp_none x : last_positions k [] x x
| lp_read rs r x y : last_positions k rs x y -> areads_batch k (ar_ops r) ->
    last_positions k (rs ++ [r]) x (firstn (ar_size r) (ar_shuffled r))
| lp_look rs r x y : last_positions k rs x y -> aonly_looks (ar_ops r) ->
    last_positions k (rs ++ [r]) x y.
End Alt.
