(** What an embedding layer has to do with one-hot vectors; nothing here refers to the model. *)
From mathcomp Require Import all_ssreflect all_algebra.
Set Implicit Arguments.
Unset Strict Implicit.
Unset Printing Implicit Defensive.
Import GRing.Theory Num.Theory.
Local Open Scope ring_scope.

Section EmbedSpec.
Variable F : rcfType.

(** [x] is the one-hot vector of index [i] (zero if there is no such index). *)
Definition is_one_hot n (i : nat) (x : 'rV[F]_n) : Prop :=
  forall j : 'I_n, x 0 j = if (j == i :> nat) then 1 else 0.
(** [rows] are the one-hot vectors of [ids], one by one. *)
Definition one_hots n (ids : seq nat) (rows : seq 'rV[F]_n) : Prop := List.Forall2 (@is_one_hot n) ids rows.
(** The same for the uses of a layer. *)
Definition one_hots_by_use n (ids : seq (seq nat)) (rows : seq (seq 'rV[F]_n)) : Prop :=
  List.Forall2 (@one_hots n) ids rows.

(** The fraction of the ids that are [j]. *)
Definition frequency (ids : seq nat) (j : nat) : F := (count (fun i => i == j) ids)%:R / (size ids)%:R.

(** [y] is the row of [W] that the embedding layer looks up. *)
Definition looks_up m n (W : 'M[F]_(m, n)) (i : nat) (y : 'rV[F]_n) : Prop :=
  forall (r : 'I_m) (j : 'I_n), r = i :> nat -> y 0 j = W r j.

(** Two histories of updates of the same statistic with the same decays and weights: the first
    with indices, the second with the one-hot vectors of these indices, on every replica, for
    every source and in every tower. *)
Definition same_histories n (R S T : nat)
    (us : seq ((nat -> nat -> nat -> seq nat) * (F * F)))
    (vs : seq ((nat -> nat -> nat -> seq 'rV[F]_n) * (F * F))) : Prop :=
  List.Forall2 (fun u v => u.2 = v.2 /\
      forall r s t, (r < R)%N -> (s < S)%N -> (t < T)%N -> one_hots (u.1 r s t) (v.1 r s t)) us vs.
End EmbedSpec.
