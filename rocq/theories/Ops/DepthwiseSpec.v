(** Vocabulary for the properties of depthwise blocks: [k] filter positions, [c] input
    channels, [n] outputs per channel; positions and channels, and channels and outputs, are
    numbered in row-major order. *)
From mathcomp Require Import all_ssreflect all_algebra.
From Verif.Blocks Require Import Model.
Set Implicit Arguments.
Unset Strict Implicit.
Unset Printing Implicit Defensive.
Local Open Scope ring_scope.

Section Depthwise.
Variables (F : rcfType) (k c n : nat).

(** What concerns input channel [ch]: of the parameters, of the input factor and of the
    output factor. *)
Definition channel (ch : 'I_c) (f : 'M[F]_(k * c, n)) : 'M[F]_(k, n) :=
  \matrix_(p, j) f (rm_pos p ch) j.
Definition in_block (ch : 'I_c) (A : 'M[F]_(k * c)) : 'M[F]_k :=
  \matrix_(p, q) A (rm_pos p ch) (rm_pos q ch).
Definition out_block (ch : 'I_c) (G : 'M[F]_(c * n)) : 'M[F]_n :=
  \matrix_(i, j) G (rm_pos ch i) (rm_pos ch j).

(** No correlations between input channels; between the outputs of different channels. *)
Definition in_uncorrelated (A : 'M[F]_(k * c)) : Prop :=
  forall p q (ch ch' : 'I_c), ch != ch' -> A (rm_pos p ch) (rm_pos q ch') = 0.
Definition out_uncorrelated (G : 'M[F]_(c * n)) : Prop :=
  forall i j (ch ch' : 'I_c), ch != ch' -> G (rm_pos ch i) (rm_pos ch' j) = 0.
End Depthwise.
